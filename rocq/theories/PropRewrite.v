(** * C113: calls and definitions done by hand. *)
From Coq Require Import String.
From Verif Require Import SpecRewrite SpecTyping Erase ReduceMore ReduceFacts StepFacts BetaFacts InferMore RewriteFacts RewriteBack PropReduce PropTyping Examples.
From Coq Require Import List.
Open Scope list_scope.

Lemma from_evals p p' : (forall w g, lgram w = Some g -> (evals (erase p) w <-> evals (erase p') w)) ->
  (forall g, (exists n v, reduce n p = Ok v /\ gram_of v = Some g) <-> (exists n v, reduce n p' = Ok v /\ gram_of v = Some g))
  /\ ((exists n v r, reduce n p = Ok v /\ typecheck v = Ok r) <-> (exists n v r, reduce n p' = Ok v /\ typecheck v = Ok r)).
Proof.
  assert (A : forall p p', (forall w g, lgram w = Some g -> (evals (erase p) w <-> evals (erase p') w)) -> forall g, (exists n v, reduce n p = Ok v /\ gram_of v = Some g) -> exists n v, reduce n p' = Ok v /\ gram_of v = Some g).
  { clear. intros p p' H g (n & v & R & G). rewrite gram_of_lgram in G. pose proof (proj1 (C40_exact p (erase v)) (ex_intro _ n (ex_intro _ v (conj R eq_refl)))) as He. apply (H _ g G) in He. destruct (proj2 (C40_exact p' (erase v)) He) as (n' & v' & R' & E). exists n', v'. split; [exact R' |]. now rewrite gram_of_lgram, E. }
  assert (B : forall p p', (forall w g, lgram w = Some g -> (evals (erase p) w <-> evals (erase p') w)) -> (exists n v r, reduce n p = Ok v /\ typecheck v = Ok r) -> exists n v r, reduce n p' = Ok v /\ typecheck v = Ok r).
  { clear - A. intros p p' H (n & v & r & R & T). destruct (proj1 (C14_program v) (ex_intro _ r T)) as (g & s & G & Ht). destruct (A p p' H g) as (n' & v' & R' & G'); [eauto |]. destruct (proj2 (C14_program v')) as [r' T']; [eauto |]. eauto. }
  intros H. assert (H' : forall w g, lgram w = Some g -> (evals (erase p') w <-> evals (erase p) w)) by (intros w g G; symmetry; eauto).
  split; [intros g; split; now apply A | split; now apply B].
Qed.
(** C113.  Doing or undoing calls and definitions by hand, at any places and any
    number of times, changes neither the grammar of a program nor whether it is
    accepted. *)
Theorem C113_rewritten : forall p p', rewritten (erase p) (erase p') ->
  (forall g, (exists n v, reduce n p = Ok v /\ gram_of v = Some g) <-> (exists n v, reduce n p' = Ok v /\ gram_of v = Some g))
  /\ ((exists n v r, reduce n p = Ok v /\ typecheck v = Ok r) <-> (exists n v r, reduce n p' = Ok v /\ typecheck v = Ok r)).
Proof. intros p p' H. apply from_evals. intros w g. now apply rewritten_grammar. Qed.
Print Assumptions C113_rewritten.
Lemma rewritten_evals e e' : rewritten e e' -> (exists v, evals e v) <-> (exists v, evals e' v).
Proof.
  assert (K : forall e e', step e e' -> (exists v, evals e v) <-> (exists v, evals e' v)).
  { clear. intros e e' H. split; intros [v Hv].
    - destruct (proj1 par_evals _ _ Hv _ (step_par _ _ H)) as (v' & V & _). eauto.
    - destruct (proj1 st_evals _ _ Hv _ (steps_st _ _ (steps_one _ _ H))) as (v' & V & _). eauto. }
  induction 1 as [e | e e' e'' H _ IH | e e' e'' H _ IH]; [reflexivity | rewrite (K _ _ H); exact IH | rewrite <- (K _ _ H); exact IH].
Qed.
Lemma rewritten_fails e e' : rewritten e e' -> (exists x, fails e x) <-> (exists x, fails e' x).
Proof.
  assert (K : forall e e', step e e' -> (exists x, fails e x) <-> (exists x, fails e' x)).
  { clear. intros e e' H. split; intros [x Hx]; [eapply steps_fails | eapply steps_fails_back]; eauto using steps_one. }
  induction 1 as [e | e e' e'' H _ IH | e e' e'' H _ IH]; [reflexivity | rewrite (K _ _ H); exact IH | rewrite <- (K _ _ H); exact IH].
Qed.
(** Reduction ends with a value, with an error, or not at all for both of them. *)
Theorem C113_outcome : forall p p', rewritten (erase p) (erase p') ->
  ((exists n v, reduce n p = Ok v) <-> (exists n v, reduce n p' = Ok v))
  /\ ((exists n y, reduce n p = Err y) <-> (exists n y, reduce n p' = Err y))
  /\ ((forall n, reduce n p = OutOfFuel) <-> (forall n, reduce n p' = OutOfFuel)).
Proof.
  intros p p' H.
  assert (V : forall p, (exists n v, reduce n p = Ok v) <-> (exists v, evals (erase p) v)).
  { clear. intros p. split; [intros (n & v & R); exists (erase v); apply C40_exact; eauto | intros [w Hw]; apply C40_exact in Hw as (n & v & R & _); eauto]. }
  assert (X : forall p, (exists n y, reduce n p = Err y) <-> (exists x, fails (erase p) x)).
  { clear. intros p. split; [intros (n & v & R); exists (failure_of v); apply C45_errors; eauto | intros [w Hw]; apply C45_errors in Hw as (n & v & R & _); eauto]. }
  assert (A : (exists n v, reduce n p = Ok v) <-> (exists n v, reduce n p' = Ok v)) by (rewrite !V; now apply rewritten_evals).
  assert (B : (exists n y, reduce n p = Err y) <-> (exists n y, reduce n p' = Err y)) by (rewrite !X; now apply rewritten_fails).
  split; [exact A | split; [exact B |]].
  assert (D : forall p p', ((exists n v, reduce n p = Ok v) -> exists n v, reduce n p' = Ok v) -> ((exists n y, reduce n p = Err y) -> exists n y, reduce n p' = Err y) -> (forall n, reduce n p' = OutOfFuel) -> forall n, reduce n p = OutOfFuel).
  { clear. intros p p' A B H n. destruct (reduce n p) as [v | y | |] eqn:E; [exfalso | exfalso | now apply C45_never_panics in E | reflexivity].
    - destruct A as (m & w & R); [eauto |]. now rewrite H in R.
    - destruct B as (m & w & R); [eauto |]. now rewrite H in R. }
  split; apply D; tauto.
Qed.
Print Assumptions C113_outcome.
(** In particular two definitions can be exchanged: [let x = d; let y = e; b] and
    [let y = e; let x = d; b], if [e] does not mention [x]. *)
Theorem C113_exchange : forall a1 a2 a3 a4 nx ny d d' e e' b b',
  erase e' = lren S (erase e) -> erase d' = lren S (erase d) -> erase b' = lren exchange (erase b) ->
  (forall g, (exists n v, reduce n (ELet a1 nx d (ELet a2 ny e' b)) = Ok v /\ gram_of v = Some g)
    <-> (exists n v, reduce n (ELet a3 ny e (ELet a4 nx d' b')) = Ok v /\ gram_of v = Some g))
  /\ ((exists n v r, reduce n (ELet a1 nx d (ELet a2 ny e' b)) = Ok v /\ typecheck v = Ok r)
    <-> (exists n v r, reduce n (ELet a3 ny e (ELet a4 nx d' b')) = Ok v /\ typecheck v = Ok r)).
Proof.
  intros a1 a2 a3 a4 nx ny d d' e e' b b' He Hd Hb. apply C113_rewritten. cbn [erase]. rewrite He, Hd, Hb.
  eapply rw_done; [apply step_body, step_let |]. eapply rw_done; [apply step_let |]. rewrite exchange_defs.
  eapply rw_undone; [apply step_let |]. eapply rw_undone; [apply step_body, step_let |]. apply rw_refl.
Qed.
Print Assumptions C113_exchange.
(** [let x = "a"; let y = "b"; match x . y;] is accepted, as is
    [let y = "b"; let x = "a"; match x . y;], and [let x = "a"; match x . "b";], a
    rewriting of both. *)
Example C113_ex :
  let p := ELet a0 (nlet "x") (L "a") (ELet a0 (nlet "y") (L "b") (cat2 (V 1) (V 0))) in
  let p' := ELet a0 (nlet "y") (L "b") (ELet a0 (nlet "x") (L "a") (cat2 (V 0) (V 1))) in
  let q := ELet a0 (nlet "x") (L "a") (cat2 (V 0) (L "b")) in
  rewritten (erase p) (erase q) /\ rewritten (erase p') (erase q)
  /\ (exists v r, reduce 9 p = Ok v /\ typecheck v = Ok r) /\ (exists v r, reduce 9 p' = Ok v /\ typecheck v = Ok r) /\ (exists v r, reduce 9 q = Ok v /\ typecheck v = Ok r).
Proof.
  split; [eapply rw_done; [apply step_body, step_let | apply rw_refl] |]. split; [eapply rw_done; [apply step_let |]; apply rw_refl |].
  repeat split; do 2 eexists; split; vm_compute; reflexivity.
Qed.
(** [let f x = x; match f("a", "b");] and [match (/x/ x)("a", "b");], the same
    program with the definition done by hand, are both in error; [ex_omega] never
    ends. *)
Example C113_ex_error :
  let f := ELam a0 [nvar "x"] (V 0) in let p := ELet a0 (nlet "f") f (ECall a0 (V 0) [L "a"; L "b"]) in let q := ECall a0 f [L "a"; L "b"] in
  rewritten (erase p) (erase q) /\ (exists x, reduce 9 p = Err x) /\ (exists x, reduce 9 q = Err x) /\ forall n, reduce n ex_omega = OutOfFuel.
Proof.
  split; [eapply rw_done; [apply step_let | apply rw_refl] |]. split; [eexists; vm_compute; reflexivity |]. split; [eexists; vm_compute; reflexivity |]. apply C44_terminates_refuted.
Qed.
