(** * SpecRewrite: programs that are one another's rewritings. *)
From Verif Require Export SpecBeta.
From Coq Require Import List.

(** [rewritten e e']: [e'] is [e] with calls and definitions done, or undone, by
    hand: any number of [step]s, at any places, forwards and backwards. *)
Inductive rewritten : lexpr -> lexpr -> Prop :=
| rw_refl e : rewritten e e
| rw_done e e' e'' : step e e' -> rewritten e' e'' -> rewritten e e''
| rw_undone e e' e'' : step e' e -> rewritten e' e'' -> rewritten e e''.

(** Exchange variables 0 and 1. *)
Definition exchange (i : nat) : nat := match i with 0 => 1 | 1 => 0 | _ => i end.
