(** * SpecKeep: a typed expression with the shape, the literals, the
    variables, the names and the spans of an untyped one. *)
From Verif Require Export Infer.

(** [keeps nm e t]: [t] is [e] decorated with types; [nm] is the name it
    carries.  The body of a fixed point carries the best of three names. *)
Inductive keeps : option name -> nexpr -> texpr -> Prop :=
| keeps_eps nm a ty : keeps nm (EEps a) (TEps (Ann nm (a_span a)) ty)
| keeps_lit nm a s ty : keeps nm (ELit a s) (TLit (Ann nm (a_span a)) s ty)
| keeps_var nm a i ty : keeps nm (EVar a i) (TVar (Ann nm (a_span a)) i ty)
| keeps_cat nm a f r f' r' ty :
    keeps (e_name f) f f' -> Forall2 (fun x t => keeps (e_name (snd x)) (snd x) t) r r' ->
    keeps nm (ECat a f r) (TCat (Ann nm (a_span a)) (f' :: r') ty)
| keeps_alt nm a f r f' r' ty :
    keeps (e_name f) f f' -> Forall2 (fun x t => keeps (e_name (snd x)) (snd x) t) r r' ->
    keeps nm (EAlt a f r) (TAlt (Ann nm (a_span a)) (f' :: r') ty)
| keeps_fix nm a ai ns b b' :
    keeps (merge_all [a_name ai; e_name b; nm]) b b' ->
    keeps nm (EFix a (ELam ai ns b)) (TFix (Ann nm (a_span a)) b').

(** The contexts reachable through the public interface of [Context]: empty,
    inside [with_unguard], inside [with_variable_type] of a [Type] (whose sets
    are ordered sets). *)
From Coq Require Import Sorted.
Inductive reachable_ctx : tctx -> Prop :=
| reach_empty : reachable_ctx (TCtx [] [])
| reach_unguard c : reachable_ctx c -> reachable_ctx (push_unguard c)
| reach_var c t : reachable_ctx c ->
    StronglySorted N.lt (first_set t) -> StronglySorted N.lt (flast_set t) -> reachable_ctx (push_var t c).
