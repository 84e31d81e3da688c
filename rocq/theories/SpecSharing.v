(** * SpecSharing: when may one fixed point stand for another? *)
From Verif Require Export Lower SpecGuard.

(** Free variables of a typed expression (de Bruijn). *)
Fixpoint tfree (i : nat) (e : texpr) {struct e} : Prop :=
  match e with
  | TEps _ _ | TLit _ _ _ => False
  | TVar _ j _ => i = j
  | TCat _ l _ | TAlt _ l _ => (fix go l := match l with [] => False | x :: l' => tfree i x \/ go l' end) l
  | TFix _ b => tfree (S i) b
  end.

(** [inside root B e]: [e] occurs in [root], under fixed points whose bodies
    are [B] (innermost first). *)
Inductive inside (root : texpr) : list texpr -> texpr -> Prop :=
| inside_root : inside root [] root
| inside_cat B a l t x : inside root B (TCat a l t) -> In x l -> inside root B x
| inside_alt B a l t x : inside root B (TAlt a l t) -> In x l -> inside root B x
| inside_fix B a i : inside root B (TFix a i) -> inside root (i :: B) i.

(** Wherever two fixed points of [root] have equal bodies, the outer variables
    these bodies mention belong to equal fixed points too. *)
Definition sharing_ok (root : texpr) : Prop :=
  forall B a i B' a' i',
    inside root B (TFix a i) -> inside root B' (TFix a' i') -> texpr_eqb i i' = true ->
    forall n, tfree (S n) i ->
    exists x x', nth_error B n = Some x /\ nth_error B' n = Some x' /\ texpr_eqb x x' = true.

(** Every fixed point of a grammar mentions no variable but its own: its body
    means the same wherever it stands. *)
Fixpoint own_fixes (g : gram) : Prop :=
  match g with
  | GEps | GLit _ | GVar _ => True
  | GCat gs | GAlt gs => (fix go l := match l with [] => True | x :: l' => own_fixes x /\ go l' end) gs
  | GFix b => closed_below 1 b /\ own_fixes b
  end.
