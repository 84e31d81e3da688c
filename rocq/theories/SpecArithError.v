(** * SpecArithError: where a text stops being the beginning of an arithmetic
    expression, and what should be said there. *)
From Coq Require Import String ZArith.
From Verif Require Export SpecArith Runtime.
From Coq Require Import List.
Import ListNotations.
Open Scope list_scope.

(** A text the arithmetic parser is for: leading spaces, then an expression. *)
Definition sentence (s : rstr) : Prop := exists b w v, s = b ++ w /\ blank b /\ Expr exact w v.
(** [u] can be continued to such a text. *)
Definition viable (u : rstr) : Prop := exists t, sentence (u ++ t).
(** Parentheses of [u] left open. *)
Fixpoint count (c : char) (u : rstr) : nat :=
  match u with [] => 0 | d :: u' => (if N.eqb c d then 1 else 0) + count c u' end.
Definition left_open (u : rstr) : nat := count (chr "(") u - count (chr ")") u.
(** The closing parentheses a text starts with. *)
Fixpoint closers (r : rstr) : nat :=
  match r with c :: r' => if N.eqb c (chr ")") then S (closers r') else 0 | [] => 0 end.

(** The error that fits the first place where [u ++ rest] goes wrong, [u]
    being read: columns count characters from 0. *)
Definition fitting (u rest : rstr) (e : parse_error) : Prop :=
  match rest with
  | [] => e = PTake (EndOfStream (LC 1 (length u)))
  | c :: _ => (sentence u /\ e = InputContinues (LC 1 (length u))) \/
      (~ sentence u /\ exists l, e = PTake (BadBranch (LC 1 (length u)) c l) /\ forall d, In d l <-> d <> 32%N /\ viable (u ++ [d]))
  end.
(** A closing parenthesis missing after [u]. *)
Definition unclosed (u rest : rstr) : parse_error :=
  PTake match rest with
  | [] => EndOfStream (LC 1 (length u))
  | c :: _ => BadString (LC 1 (length u)) [c] (lit ")")
  end.
