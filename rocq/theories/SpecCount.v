(** * SpecCount: the parts of a grammar. *)
From Verif Require Export SpecLang.
From Coq Require Import List.

(** [part_of x g]: [x] is [g] or is written somewhere in it. *)
Inductive part_of (x : gram) : gram -> Prop :=
| part_self : part_of x x
| part_cat gs g : In g gs -> part_of x g -> part_of x (GCat gs)
| part_alt gs g : In g gs -> part_of x g -> part_of x (GAlt gs)
| part_fix g : part_of x g -> part_of x (GFix g).

(** Only literals, sequences and alternations. *)
Definition finite_gram (g : gram) : Prop :=
  forall x, part_of x g -> match x with GLit _ | GCat _ | GAlt _ => True | _ => False end.

(** [D] lists the different parts of [g], each once. *)
Definition different_parts (g : gram) (D : list gram) : Prop :=
  NoDup D /\ forall x, In x D <-> part_of x g.

(** With epsilon: only epsilon, literals, sequences and alternations. *)
Definition finite_or_epsilon (g : gram) : Prop :=
  forall x, part_of x g -> match x with GEps | GLit _ | GCat _ | GAlt _ => True | _ => False end.
Fixpoint has_epsilon (g : gram) : bool :=
  match g with
  | GEps => true
  | GLit _ | GVar _ => false
  | GCat gs | GAlt gs => existsb has_epsilon gs
  | GFix g' => has_epsilon g'
  end.
(** How many times a part with an epsilon in it is written. *)
Fixpoint epsilon_parts (g : gram) : nat :=
  match g with
  | GEps => 1
  | GLit _ | GVar _ => 0
  | GCat gs | GAlt gs => (if existsb has_epsilon gs then 1 else 0) + list_sum (map epsilon_parts gs)
  | GFix g' => (if has_epsilon g' then 1 else 0) + epsilon_parts g'
  end.
(** [D] lists the different parts without epsilon, each once. *)
Definition different_plain_parts (g : gram) (D : list gram) : Prop :=
  NoDup D /\ forall x, In x D <-> part_of x g /\ has_epsilon x = false.
