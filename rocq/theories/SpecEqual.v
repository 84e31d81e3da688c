(** * SpecEqual: what equality of expressions looks at. *)
From Verif Require Export Ast SpecDistinct.
From Coq Require Import List.
Open Scope list_scope.

(** The names that the functions and let statements of an expression bind, in
    the order in which they are written. *)
Fixpoint binders (e : nexpr) : list name :=
  match e with
  | EEps _ | ELit _ _ | EVar _ _ => []
  | ECat _ f r | EAlt _ f r => binders f ++ flat_map (fun x => binders (snd x)) r
  | EFix _ i => binders i
  | ECall _ o l => binders o ++ flat_map binders l
  | ELam _ ns i => ns ++ binders i
  | ELet _ n x y => n :: binders x ++ binders y
  end.
