(** * SpecCost: how large an expression is. *)
From Verif Require Export Ast.
From Coq Require Import List.
Import ListNotations.

(** The number of expressions written. *)
Fixpoint size (e : nexpr) : nat :=
  match e with
  | EEps _ | ELit _ _ | EVar _ _ => 1
  | ECat _ f r | EAlt _ f r => 1 + size f + (fix go l := match l with [] => 0 | (_, x) :: l' => size x + go l' end) r
  | EFix _ i | ELam _ _ i => 1 + size i
  | ECall _ o l => 1 + size o + (fix go l := match l with [] => 0 | x :: l' => size x + go l' end) l
  | ELet _ _ x y => 1 + size x + size y
  end.
(** How many fixed points are inside one another. *)
Fixpoint fix_depth (e : nexpr) : nat :=
  match e with
  | EEps _ | ELit _ _ | EVar _ _ => 0
  | ECat _ f r | EAlt _ f r => Nat.max (fix_depth f) ((fix go l := match l with [] => 0 | (_, x) :: l' => Nat.max (fix_depth x) (go l') end) r)
  | EFix _ i => 1 + fix_depth i
  | ELam _ _ i => fix_depth i
  | ECall _ o l => Nat.max (fix_depth o) ((fix go l := match l with [] => 0 | x :: l' => Nat.max (fix_depth x) (go l') end) l)
  | ELet _ _ x y => Nat.max (fix_depth x) (fix_depth y)
  end.
