(** * C112: definitions that are not used. *)
From Coq Require Import String.
From Verif Require Import SpecUnused SpecTyping Erase ReduceMore ReduceFacts StepFacts BetaFacts InferMore UnusedFacts PropReduce PropTyping Examples.
From Coq Require Import List.
Open Scope list_scope.

Lemma unused_grammar p p' g : indifferent (erase p) (erase p') -> (exists n v, reduce n p = Ok v /\ gram_of v = Some g) -> exists n v, reduce n p' = Ok v /\ gram_of v = Some g.
Proof.
  intros H (n & v & R & G). pose proof (proj1 (C40_exact p (erase v)) (ex_intro _ n (ex_intro _ v (conj R eq_refl)))) as He. rewrite gram_of_lgram in G.
  destruct (proj1 in_evals _ _ He _ H) as (w & W1 & W2). rewrite (in_gram _ _ _ G W2) in W1. destruct (proj2 (C40_exact p' (erase v)) W1) as (n' & v' & R' & E). exists n', v'. split; [exact R' |]. now rewrite gram_of_lgram, E.
Qed.
Lemma unused_error p p' : indifferent (erase p) (erase p') -> (exists n y, reduce n p = Err y) -> exists n y, reduce n p' = Err y.
Proof.
  intros H (n & y & R). pose proof (proj1 (C45_errors p (failure_of y)) (ex_intro _ n (ex_intro _ y (conj R eq_refl)))) as Hf. destruct (in_fails _ _ Hf _ H) as [x' Hx]. destruct (proj2 (C45_errors p' x') Hx) as (n' & y' & R' & _). eauto.
Qed.
(** C112.  Programs that differ in definitions that are not used have the same
    grammar, or both have none; they are accepted together, and are turned down
    together by reduction. *)
Theorem C112_unused : forall p p', indifferent (erase p) (erase p') ->
  (forall g, (exists n v, reduce n p = Ok v /\ gram_of v = Some g) <-> (exists n v, reduce n p' = Ok v /\ gram_of v = Some g))
  /\ ((exists n v r, reduce n p = Ok v /\ typecheck v = Ok r) <-> (exists n v r, reduce n p' = Ok v /\ typecheck v = Ok r))
  /\ ((exists n y, reduce n p = Err y) <-> (exists n y, reduce n p' = Err y)).
Proof.
  intros p p' H. pose proof (proj1 in_sym _ _ H) as H'. split; [| split].
  - intros g. split; now apply unused_grammar.
  - assert (K : forall p p', indifferent (erase p) (erase p') -> (exists n v r, reduce n p = Ok v /\ typecheck v = Ok r) -> exists n v r, reduce n p' = Ok v /\ typecheck v = Ok r).
    { clear. intros p p' H (n & v & r & R & T). destruct (proj1 (C14_program v) (ex_intro _ r T)) as (g & s & G & Ht). destruct (unused_grammar p p' g H) as (n' & v' & R' & G'); [eauto |].
      destruct (proj2 (C14_program v')) as [r' T']; [eauto |]. eauto. }
    split; now apply K.
  - split; now apply unused_error.
Qed.
Print Assumptions C112_unused.
(** In particular it does not matter what [d] is in [let x = d; ...] if [x] is not
    used. *)
Theorem C112_let : forall a nm d d' b, ~ uses 0 (erase b) ->
  (forall g, (exists n v, reduce n (ELet a nm d b) = Ok v /\ gram_of v = Some g) <-> (exists n v, reduce n (ELet a nm d' b) = Ok v /\ gram_of v = Some g))
  /\ ((exists n v r, reduce n (ELet a nm d b) = Ok v /\ typecheck v = Ok r) <-> (exists n v r, reduce n (ELet a nm d' b) = Ok v /\ typecheck v = Ok r)).
Proof.
  intros a nm d d' b H. destruct (C112_unused (ELet a nm d b) (ELet a nm d' b)) as (A & B & _); [cbn [erase]; apply in_unused; auto; apply in_refl | auto].
Qed.
Print Assumptions C112_let.
(** [let x = "a"("b"); match "c";] and [let x = !(/r/ r . "a"); match "c";] are
    accepted as [let x = "d"; match "c";] is: a call of what is not a function and a
    left recursion go unnoticed.  With [match x;] neither is. *)
Example C112_ex : let bad1 := ECall a0 (L "a") [L "b"] in let bad2 := fix1 "r" (cat2 (V 0) (L "a")) in
  ~ uses 0 (erase (L "c"))
  /\ (exists v r, reduce 9 (ELet a0 (nlet "x") bad1 (L "c")) = Ok v /\ typecheck v = Ok r)
  /\ (exists v r, reduce 9 (ELet a0 (nlet "x") bad2 (L "c")) = Ok v /\ typecheck v = Ok r)
  /\ (exists x, reduce 9 (ELet a0 (nlet "x") bad1 (V 0)) = Err x)
  /\ (exists v x, reduce 9 (ELet a0 (nlet "x") bad2 (V 0)) = Ok v /\ typecheck v = Err x).
Proof.
  split; [intros H; inversion H |]. split; [do 2 eexists; split; vm_compute; reflexivity |]. split; [do 2 eexists; split; vm_compute; reflexivity |]. split; [eexists; vm_compute; reflexivity |]. do 2 eexists; split; vm_compute; reflexivity.
Qed.
