(** * SpecDepth: the height of a value, and languages of short words. *)
From Verif Require Export SpecLang.

(** How deeply a value of a generated type is nested. *)
Fixpoint height (t : tree) : nat :=
  match t with
  | NEps | NLit _ => 1
  | NCat ts => 1 + fold_right Nat.max 0 (map height ts)
  | NAlt _ t => 1 + height t
  | NBox t => 1 + height t
  end.


(** The variable [i] is used in the grammar; the variable of some fixed point
    in the grammar is used in its body. *)
Fixpoint used (i : nat) (g : gram) {struct g} : Prop :=
  match g with
  | GEps | GLit _ => False
  | GVar j => j = i
  | GCat gs | GAlt gs => (fix go l := match l with [] => False | g :: l' => used i g \/ go l' end) gs
  | GFix g' => used (S i) g'
  end.
Fixpoint recursive (g : gram) : Prop :=
  match g with
  | GEps | GLit _ | GVar _ => False
  | GCat gs | GAlt gs => (fix go l := match l with [] => False | g :: l' => recursive g \/ go l' end) gs
  | GFix g' => used 0 g' \/ recursive g'
  end.
