(** * C112, continued: arguments that are not used. *)
From Coq Require Import String.
From Verif Require Import SpecUnused SpecTyping Erase ReduceMore ReduceFacts StepFacts BetaFacts InferMore UnusedFacts PropReduce PropTyping Examples.
From Coq Require Import List.
Open Scope list_scope.

Lemma agree_inst b args args' : agree_on b args args' -> lsub (inst args) b = lsub (inst args') b.
Proof. intros [Hl H]. apply lsub_used. intros i Hi. unfold inst. now rewrite (H i Hi), Hl. Qed.
Lemma agree_sym b args args' : agree_on b args args' -> agree_on b args' args.
Proof. intros [Hl H]. split; [now symmetry |]. intros i Hi. symmetry. auto. Qed.

(** The same values, both accepted or none, both in error or none. *)
Definition same_program (p p' : nexpr) : Prop :=
  (forall v, (exists n w, reduce n p = Ok w /\ erase w = v) <-> (exists n w, reduce n p' = Ok w /\ erase w = v))
  /\ ((exists n v r, reduce n p = Ok v /\ typecheck v = Ok r) <-> (exists n v r, reduce n p' = Ok v /\ typecheck v = Ok r))
  /\ ((exists n y, reduce n p = Err y) <-> (exists n y, reduce n p' = Err y)).

Lemma same_from p p' :
  (forall v, evals (erase p) v <-> evals (erase p') v) -> ((exists x, fails (erase p) x) <-> (exists x, fails (erase p') x)) -> same_program p p'.
Proof.
  intros He Hf. assert (HV : forall v, (exists n w, reduce n p = Ok w /\ erase w = v) <-> (exists n w, reduce n p' = Ok w /\ erase w = v)) by (intros v; now rewrite !C40_exact).
  split; [exact HV | split].
  - assert (K : forall p p', (forall v, (exists n w, reduce n p = Ok w /\ erase w = v) -> (exists n w, reduce n p' = Ok w /\ erase w = v)) -> (exists n v r, reduce n p = Ok v /\ typecheck v = Ok r) -> exists n v r, reduce n p' = Ok v /\ typecheck v = Ok r).
    { clear. intros p p' H (n & v & r & R & T). destruct (proj1 (C14_program v) (ex_intro _ r T)) as (g & s & G & Ht). destruct (H (erase v)) as (n' & v' & R' & E); [eauto |].
      destruct (proj2 (C14_program v')) as [r' T']; [exists g, s; split; [now rewrite gram_of_lgram, E, <- gram_of_lgram | exact Ht] |]. eauto. }
    split; apply K; intros v; apply HV.
  - split; intros (n & y & R).
    + pose proof (proj1 (C45_errors p (failure_of y)) (ex_intro _ n (ex_intro _ y (conj R eq_refl)))) as H. destruct (proj1 Hf (ex_intro _ _ H)) as [x Hx]. destruct (proj2 (C45_errors p' x) Hx) as (m & z & Z & _). eauto.
    + pose proof (proj1 (C45_errors p' (failure_of y)) (ex_intro _ n (ex_intro _ y (conj R eq_refl)))) as H. destruct (proj2 Hf (ex_intro _ _ H)) as [x Hx]. destruct (proj2 (C45_errors p x) Hx) as (m & z & Z & _). eauto.
Qed.

Lemma call_evals f n b args args' v : evals f (LLam n b) -> agree_on b args args' -> evals (LCall f args) v -> evals (LCall f args') v.
Proof.
  intros Hf A H. inversion H as [| | | | | | | | f0 n0 b0 l v0 Hf' Hl Hb |]; subst. pose proof (proj1 evals_det _ _ Hf _ Hf') as E. injection E as E1 E2. subst n b0.
  eapply ev_call; [exact Hf | symmetry; apply A | now rewrite <- (agree_inst _ _ _ A)].
Qed.
Lemma call_fails f n b args args' : evals f (LLam n b) -> agree_on b args args' -> (exists x, fails (LCall f args) x) -> exists x, fails (LCall f args') x.
Proof.
  intros Hf A [x H]. inversion H as [f0 v l Hv Hn | f0 n0 b0 l Hv Hl | f0 l y Hy | f0 n0 b0 l y Hv Hl Hy | | | | |]; subst.
  - eexists. eapply fails_not_function; eauto.
  - eexists. eapply fails_arity; [exact Hv |]. now rewrite <- (proj1 A).
  - eexists. apply fails_fun. exact Hy.
  - pose proof (proj1 evals_det _ _ Hf _ Hv) as E. injection E as E1 E2. subst n b0. eexists. eapply fails_body; [exact Hf | symmetry; apply A | rewrite <- (agree_inst _ _ _ A); exact Hy].
Qed.
(** C112.  What is passed to a parameter that the function does not use does not
    matter: the call has the same value, is accepted or not, and fails or not. *)
Theorem C112_argument : forall a a' f m lam n b args args',
  reduce m f = Ok lam -> erase lam = LLam n b -> agree_on b (map erase args) (map erase args') ->
  same_program (ECall a f args) (ECall a' f args').
Proof.
  intros a a' f m lam n b args args' Hr He A. assert (Hf : evals (erase f) (LLam n b)) by (apply C40_exact; eauto). apply same_from; cbn [erase].
  - intros v. split; eapply call_evals; eauto using agree_sym.
  - split; eapply call_fails; eauto using agree_sym.
Qed.
Print Assumptions C112_argument.

Lemma agree_sub b args args' s : agree_on b args args' -> agree_on b (map (lsub s) args) (map (lsub s) args').
Proof.
  intros [Hl H]. split; [now rewrite !map_length |]. intros i Hi. rewrite <- !map_rev, !nth_error_map. now rewrite (H i Hi).
Qed.
(** The same for a function with a name, as programs have it: in
    [let f p1 ... pn = b; ... match f(args);]. *)
Theorem C112_argument_let : forall a a' nm c ns b c' i args args',
  agree_on (erase b) (map erase args) (map erase args') ->
  same_program (ELet a nm (ELam c ns b) (ECall c' (EVar i 0) args)) (ELet a' nm (ELam c ns b) (ECall c' (EVar i 0) args')).
Proof.
  intros a a' nm c ns b c' i args args' A. apply same_from; cbn [erase].
  - intros v. set (x := LLam (length ns) (erase b)).
    assert (K : forall l l', agree_on (erase b) l l' -> evals (LLet x (LCall (LVar 0) l)) v -> evals (LLet x (LCall (LVar 0) l')) v).
    { intros l l' A' H. inversion H as [| | | | | | | | | x0 b0 v0 Hb]; subst. constructor. cbn [lsub] in *. change (inst [x] 0) with x in *. eapply call_evals; [constructor | apply agree_sub; exact A' | exact Hb]. }
    split; apply K; auto using agree_sym.
  - set (x := LLam (length ns) (erase b)).
    assert (K : forall l l', agree_on (erase b) l l' -> (exists y, fails (LLet x (LCall (LVar 0) l)) y) -> exists y, fails (LLet x (LCall (LVar 0) l')) y).
    { intros l l' A' [y H]. inversion H as [| | | | d b0 y0 Hb | | | |]; subst. cbn [lsub] in Hb. change (inst [x] 0) with x in Hb.
      destruct (call_fails x (length ns) (erase b) _ (map (lsub (inst [x])) l') (ev_lam _ _) (agree_sub _ _ _ _ A') (ex_intro _ _ Hb)) as [z Hz]. exists z. apply fails_let. exact Hz. }
    split; apply K; auto using agree_sym.
Qed.
Print Assumptions C112_argument_let.
(** [let f x y = x; match f("c", "a"("b"));] is accepted; with [f("a"("b"), "c")] it is not. *)
Example C112_ex_argument : let bad := ECall a0 (L "a") [L "b"] in let p l := ELet a0 (nlet "f") (ELam a0 [nvar "x"; nvar "y"] (V 1)) (ECall a0 (V 0) l) in
  agree_on (erase (V 1)) (map erase [L "c"; bad]) (map erase [L "c"; L "d"])
  /\ (exists v r, reduce 9 (p [L "c"; bad]) = Ok v /\ typecheck v = Ok r)
  /\ exists x, reduce 9 (p [bad; L "c"]) = Err x.
Proof.
  split; [split; [reflexivity |]; intros i H; inversion H; subst; reflexivity |]. split; [do 2 eexists; split; vm_compute; reflexivity |]. eexists; vm_compute; reflexivity.
Qed.
