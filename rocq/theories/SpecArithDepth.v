(** * SpecArithDepth: how deep the parentheses of a text go. *)
From Coq Require Import String.
From Verif Require Export Base.
From Coq Require Import List.
Open Scope list_scope.

(** How often a character occurs. *)
Definition times (c : char) (w : rstr) : nat := count_occ N.eq_dec w c.
(** Nowhere in the text are more than [n] parentheses open. *)
Definition open_at_most (n : nat) (w : rstr) : Prop := forall u v, w = u ++ v -> times (chr "(") u <= n + times (chr ")") u.
