(** * SpecRegular: deterministic finite automata. *)
From Verif Require Export Base.
From Coq Require Import List.
Import ListNotations.

(** The states are the numbers below [states]. *)
Record dfa := DFA {
  states : nat;
  alphabet : list char;
  next : nat -> char -> nat;
  final : nat -> bool }.
Definition dfa_ok (A : dfa) : Prop :=
  alphabet A <> [] /\ NoDup (alphabet A) /\ forall q c, q < states A -> In c (alphabet A) -> next A q c < states A.
(** [accepts A q w]: reading [w] from the state [q] ends in a final state. *)
Fixpoint accepts (A : dfa) (q : nat) (w : rstr) : Prop :=
  match w with
  | [] => final A q = true
  | c :: w' => In c (alphabet A) /\ accepts A (next A q c) w'
  end.
