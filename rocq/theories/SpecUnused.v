(** * SpecUnused: definitions that are not used. *)
From Verif Require Export SpecBeta.
From Coq Require Import List.

(** [uses k e]: variable [k] occurs free in [e]. *)
Inductive uses : nat -> lexpr -> Prop :=
| uses_var k : uses k (LVar k)
| uses_cat k l x : In x l -> uses k x -> uses k (LCat l)
| uses_alt k l x : In x l -> uses k x -> uses k (LAlt l)
| uses_fix k e : uses k e -> uses k (LFix e)
| uses_fun k f l : uses k f -> uses k (LCall f l)
| uses_arg k f l x : In x l -> uses k x -> uses k (LCall f l)
| uses_lam k n e : uses (n + k) e -> uses k (LLam n e)
| uses_def k x b : uses k x -> uses k (LLet x b)
| uses_body k x b : uses (S k) b -> uses k (LLet x b).

(** [indifferent e e']: [e'] is [e] with other definitions in place of some that
    are not used, at any places. *)
Inductive indifferent : lexpr -> lexpr -> Prop :=
| in_unused x x' b b' : ~ uses 0 b -> ~ uses 0 b' -> indifferent b b' -> indifferent (LLet x b) (LLet x' b')
| in_eps : indifferent LEps LEps
| in_lit s : indifferent (LLit s) (LLit s)
| in_var i : indifferent (LVar i) (LVar i)
| in_cat l l' : indifferents l l' -> indifferent (LCat l) (LCat l')
| in_alt l l' : indifferents l l' -> indifferent (LAlt l) (LAlt l')
| in_fix e e' : indifferent e e' -> indifferent (LFix e) (LFix e')
| in_call f f' l l' : indifferent f f' -> indifferents l l' -> indifferent (LCall f l) (LCall f' l')
| in_lam n e e' : indifferent e e' -> indifferent (LLam n e) (LLam n e')
| in_let x x' b b' : indifferent x x' -> indifferent b b' -> indifferent (LLet x b) (LLet x' b')
with indifferents : list lexpr -> list lexpr -> Prop :=
| in_nil : indifferents [] []
| in_cons x x' l l' : indifferent x x' -> indifferents l l' -> indifferents (x :: l) (x' :: l').
Scheme indifferent_mind := Induction for indifferent Sort Prop
with indifferents_mind := Induction for indifferents Sort Prop.
Combined Scheme indifferent_mutind from indifferent_mind, indifferents_mind.

(** [args] and [args'] give the same to every parameter that [b] uses.  The last
    parameter is variable 0. *)
Definition agree_on (b : lexpr) (args args' : list lexpr) : Prop :=
  length args = length args' /\ forall i, uses i b -> nth_error (rev args) i = nth_error (rev args') i.
