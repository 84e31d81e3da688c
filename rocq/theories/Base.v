(** * Base: characters, strings and outcomes shared by every part of the model. *)
From Coq Require Export List Arith NArith Bool Lia.
From Coq Require Import Ascii String.
Export ListNotations.
#[global] Open Scope list_scope.

(** A Rust [char] is its scalar value.  The model does not restrict values to
    the Unicode scalar range except where a property is about it. *)
Notation char := N (only parsing).

(** A Rust [str]/[String] as the sequence returned by [.chars()]. *)
Notation rstr := (list N) (only parsing).

(** [proc_macro2::Span]: opaque, only carried around.  [Span::call_site()] is 0. *)
Notation span := N (only parsing).
Definition call_site : span := 0%N.

(** Outcome of a Rust function: a [Result], or a panic, or (model only)
    exhaustion of the fuel that replaces an unbounded loop or recursion. *)
Inductive res (A E : Type) : Type :=
| Ok (a : A)
| Err (e : E)
| Panic
| OutOfFuel.
Arguments Ok {A E} _.
Arguments Err {A E} _.
Arguments Panic {A E}.
Arguments OutOfFuel {A E}.

Definition res_map {A B E} (f : A -> B) (r : res A E) : res B E :=
  match r with
  | Ok a => Ok (f a)
  | Err e => Err e
  | Panic => Panic
  | OutOfFuel => OutOfFuel
  end.

Definition res_map_err {A E F} (f : E -> F) (r : res A E) : res A F :=
  match r with
  | Ok a => Ok a
  | Err e => Err (f e)
  | Panic => Panic
  | OutOfFuel => OutOfFuel
  end.

Definition res_bind {A B E} (r : res A E) (f : A -> res B E) : res B E :=
  match r with
  | Ok a => f a
  | Err e => Err e
  | Panic => Panic
  | OutOfFuel => OutOfFuel
  end.

(** Writing examples: the characters of a Coq (ASCII) string. *)
Definition lit (s : string) : rstr := map N_of_ascii (list_ascii_of_string s).
Definition chr (s : string) : char := hd 0%N (lit s).

(** String equality. *)
Fixpoint rstr_eqb (a b : rstr) : bool :=
  match a, b with
  | [], [] => true
  | x :: a', y :: b' => N.eqb x y && rstr_eqb a' b'
  | _, _ => false
  end.

Lemma rstr_eqb_eq a b : rstr_eqb a b = true <-> a = b.
Proof.
  revert b; induction a as [|x a IH]; intros [|y b]; simpl; split; intros H; try congruence; try reflexivity.
  - apply andb_true_iff in H as [H1 H2]. apply N.eqb_eq in H1. apply IH in H2. congruence.
  - injection H as -> ->. rewrite N.eqb_refl. simpl. apply IH. reflexivity.
Qed.

Lemma rstr_eqb_refl a : rstr_eqb a a = true.
Proof. apply rstr_eqb_eq. reflexivity. Qed.
