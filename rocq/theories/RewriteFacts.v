(** * RewriteFacts: evaluation commutes with parallel reduction. *)
From Verif Require Import SpecRewrite BetaFacts StepFacts.
From Coq Require Import List Lia PeanoNat.

Inductive par : lexpr -> lexpr -> Prop :=
| par_beta n b b' l l' : length l = n -> par b b' -> pars l l' -> par (LCall (LLam n b) l) (lsub (inst l') b')
| par_def x x' b b' : par x x' -> par b b' -> par (LLet x b) (lsub (inst [x']) b')
| par_eps : par LEps LEps
| par_lit s : par (LLit s) (LLit s)
| par_var i : par (LVar i) (LVar i)
| par_cat l l' : pars l l' -> par (LCat l) (LCat l')
| par_alt l l' : pars l l' -> par (LAlt l) (LAlt l')
| par_fix e e' : par e e' -> par (LFix e) (LFix e')
| par_call f f' l l' : par f f' -> pars l l' -> par (LCall f l) (LCall f' l')
| par_lam n e e' : par e e' -> par (LLam n e) (LLam n e')
| par_let x x' b b' : par x x' -> par b b' -> par (LLet x b) (LLet x' b')
with pars : list lexpr -> list lexpr -> Prop :=
| pars_nil : pars [] []
| pars_cons x x' l l' : par x x' -> pars l l' -> pars (x :: l) (x' :: l').
Scheme par_mind := Induction for par Sort Prop
with pars_mind := Induction for pars Sort Prop.
Combined Scheme par_mutind from par_mind, pars_mind.

Lemma par_refl e : par e e.
Proof.
  induction e as [| w | l H | l H | i IH | i | o l IH H | n i IH | x y IH IH2] using lexpr_ind'; try (now constructor); try (apply par_let; assumption); try (apply par_call; [assumption |]); try constructor; try assumption; induction H; constructor; auto.
Qed.
Lemma pars_refl l : pars l l.
Proof. induction l; constructor; auto using par_refl. Qed.
Lemma pars_length l l' : pars l l' -> length l = length l'.
Proof. induction 1; cbn; congruence. Qed.
Lemma par_ren : (forall e e', par e e' -> forall r, par (lren r e) (lren r e')) /\ (forall l l', pars l l' -> forall r, pars (map (lren r) l) (map (lren r) l')).
Proof.
  apply par_mutind; intros; cbn [lren map]; try (solve [constructor; auto]); try (solve [apply par_let; auto]); try (solve [apply par_call; auto]).
  - rewrite inst_lren. rewrite <- (pars_length _ _ p0), e. apply par_beta; [now rewrite map_length | auto | auto].
  - rewrite (inst_lren [x'] r b'). apply par_def; auto.
Qed.
Lemma par_sub : (forall e e', par e e' -> forall s s', (forall i, par (s i) (s' i)) -> par (lsub s e) (lsub s' e'))
  /\ (forall l l', pars l l' -> forall s s', (forall i, par (s i) (s' i)) -> pars (map (lsub s) l) (map (lsub s') l')).
Proof.
  assert (Up : forall n s s', (forall i, par (s i) (s' i)) -> forall i, par (ups n s i) (ups n s' i)).
  { intros n s s' H i. unfold ups. destruct (Nat.ltb i n); [constructor |]. now apply par_ren. }
  apply par_mutind; intros; cbn [lsub map]; try (solve [auto]); try (solve [constructor; auto]); try (solve [apply par_let; auto]); try (solve [apply par_call; auto]).
  - rewrite inst_lsub. rewrite <- (pars_length _ _ p0), e. apply par_beta; [now rewrite map_length | auto | auto].
  - rewrite (inst_lsub [x'] s' b'). apply par_def; [auto |]. apply H0. apply (Up 1). auto.
Qed.
Lemma pars_nth : forall l l', pars l l' -> forall i, match nth_error l i, nth_error l' i with Some x, Some y => par x y | None, None => True | _, _ => False end.
Proof. induction 1 as [| x x' l l' Hx _ IH]; intros [| i]; cbn; auto. apply IH. Qed.
Lemma pars_app l l' m m' : pars l l' -> pars m m' -> pars (l ++ m) (l' ++ m').
Proof. induction 1; cbn; [auto | intros; constructor; auto]. Qed.
Lemma pars_rev l l' : pars l l' -> pars (rev l) (rev l').
Proof. induction 1 as [| x x' l l' Hx _ IH]; cbn [rev]; [constructor |]. apply pars_app; [exact IH |]. repeat constructor. exact Hx. Qed.
Lemma pars_inst l l' : pars l l' -> forall i, par (inst l i) (inst l' i).
Proof.
  intros H i. unfold inst. pose proof (pars_nth _ _ (pars_rev _ _ H) i) as K. destruct (nth_error (rev l) i), (nth_error (rev l') i); try contradiction; [exact K |]. rewrite (pars_length _ _ H). constructor.
Qed.
Lemma par_is_lam e e' : evaluated e -> par e e' -> is_lam e' = is_lam e.
Proof. intros He H. destruct H; try reflexivity; cbn in He; contradiction. Qed.
Lemma step_par e e' : step e e' -> par e e'.
Proof.
  induction 1 as [n b args Hl | x b | l x y r _ IH | l x y r _ IH | x y _ IH | f g args _ IH | f l x y r _ IH | n x y _ IH | x y b _ IH | x b c _ IH];
    try (solve [apply par_beta; auto using par_refl, pars_refl]); try (solve [apply par_def; auto using par_refl]); try (solve [apply par_let; auto using par_refl]);
    try (solve [apply par_call; auto using par_refl, pars_refl]); try (solve [constructor; auto]).
  - constructor. apply pars_app; [apply pars_refl |]. constructor; [exact IH | apply pars_refl].
  - constructor. apply pars_app; [apply pars_refl |]. constructor; [exact IH | apply pars_refl].
  - apply par_call; [apply par_refl |]. apply pars_app; [apply pars_refl |]. constructor; [exact IH | apply pars_refl].
Qed.
Lemma par_evals : (forall e v, evals e v -> forall e', par e e' -> exists v', evals e' v' /\ par v v')
  /\ (forall l vs, evals_list l vs -> forall l', pars l l' -> exists vs', evals_list l' vs' /\ pars vs vs').
Proof.
  enough (K : (forall e v, evals e v -> forall e', par e e' -> exists v', evals e' v' /\ par v v') /\ True) by
    (split; [apply K |]; intros l vs H; induction H as [| x v l l' Hx _ IH]; intros m Hm; inversion Hm; subst;
      [exists []; split; constructor |
       match goal with A : par x ?y |- _ => destruct (proj1 K _ _ Hx _ A) as (v' & V1 & V2) end;
       match goal with A : pars l ?y |- _ => destruct (IH _ A) as (vs' & W1 & W2) end; exists (v' :: vs'); split; constructor; auto]).
  refine (conj (evals_mi (fun e v => forall e', par e e' -> exists v', evals e' v' /\ par v v') (fun l vs => forall l', pars l l' -> exists vs', evals_list l' vs' /\ pars vs vs') _ _ _ _ _ _ _ _ _ _ _ _) Logic.I).
  - intros e' H. inversion H; subst. exists LEps. split; constructor.
  - intros s e' H. inversion H; subst. exists (LLit s). split; constructor.
  - intros i e' H. inversion H; subst. exists (LVar i). split; constructor.
  - intros n b e' H. inversion H; subst. eexists. split; [constructor | exact H].
  - intros l vs _ IH e' H. inversion H; subst. edestruct IH as (vs' & V1 & V2); [eassumption |]. exists (LCat vs'). split; constructor; assumption.
  - intros l vs _ IH e' H. inversion H; subst. edestruct IH as (vs' & V1 & V2); [eassumption |]. exists (LAlt vs'). split; constructor; assumption.
  - intros e n b b' _ IH1 _ IH2 e' H. inversion H; subst. edestruct IH1 as (f & F1 & F2); [eassumption |]. inversion F2; subst. edestruct IH2 as (c & C1 & C2); [eassumption |]. eexists. split; [eapply ev_fix; eassumption |]. constructor. now constructor.
  - intros e v Hev IH Hl e' H. inversion H; subst. edestruct IH as (f & F1 & F2); [eassumption |]. exists (LFix f). split; [apply ev_fix_other; [exact F1 | rewrite (par_is_lam v f); [exact Hl | apply (proj1 evals_evaluated _ _ Hev) | exact F2]] | now constructor].
  - intros f n b args v Hev IH1 Hl _ IH2 e' H. inversion H as [n0 b0 b' l l' Hn Hb Ha | | | | | | | | f0 f' l l' Hf Ha | |]; subst.
    + inversion Hev; subst. apply IH2. apply par_sub; [exact Hb | now apply pars_inst].
    + edestruct IH1 as (f1 & F1 & F2); [exact Hf |]. inversion F2 as [| | | | | | | | | n0 b0 b' Hb |]; subst.
      destruct (IH2 (lsub (inst l') b')) as (w & W1 & W2); [apply par_sub; [exact Hb | now apply pars_inst] |]. exists w. split; [eapply ev_call; [exact F1 | symmetry; now apply pars_length | exact W1] | exact W2].
  - intros x b v _ IH e' H. inversion H as [| x0 x' b0 b' Hx Hb | | | | | | | | | x0 x' b0 b' Hx Hb]; subst.
    + apply IH. apply par_sub; [exact Hb | apply pars_inst; repeat constructor; exact Hx].
    + destruct (IH (lsub (inst [x']) b')) as (w & W1 & W2); [apply par_sub; [exact Hb | apply pars_inst; repeat constructor; exact Hx] |]. exists w. split; [now constructor | exact W2].
  - intros l' H. inversion H; subst. exists []. split; constructor.
  - intros x v l vs _ IH1 _ IH2 l' H. inversion H; subst. edestruct IH1 as (v' & V1 & V2); [eassumption |]. edestruct IH2 as (vs' & W1 & W2); [eassumption |]. exists (v' :: vs'). split; constructor; assumption.
Qed.
(** A grammar has nothing left to do. *)
Lemma par_gram v : forall v' g, lgram v = Some g -> par v v' -> v' = v.
Proof.
  assert (EL : forall l, Forall (fun v => forall v' g, lgram v = Some g -> par v v' -> v' = v) l -> forall l' gs, each lgram l = Some gs -> pars l l' -> l' = l).
  { induction 1 as [| x l Hx _ IH]; intros l' gs E H; inversion H; subst; [reflexivity |]. cbn in E. destruct (lgram x) as [g |] eqn:Eg; [| discriminate]. destruct (each lgram l) as [gl |] eqn:El; [| discriminate]. f_equal; eauto. }
  enough (K : forall v, (forall v' g, lgram v = Some g -> par v v' -> v' = v) /\ (forall n b, v = LLam n b -> forall b' g, lgram b = Some g -> par b b' -> b' = b)) by (intros v' g; apply (proj1 (K v))).
  clear v. intros v. induction v as [| w | l H | l H | i IH | i | o l IH H | n i IH | x y IH IH2] using lexpr_ind'; split; try discriminate.
  - intros v' g _ Hi. now inversion Hi.
  - intros v' g _ Hi. now inversion Hi.
  - intros v' g Hg Hi. inversion Hi; subst. f_equal. cbn in Hg. destruct (each lgram l) as [gl |] eqn:El; [| discriminate]. eapply EL; eauto. eapply Forall_impl; [| exact H]. intros z Hz. apply Hz.
  - intros v' g Hg Hi. inversion Hi; subst. f_equal. cbn in Hg. destruct (each lgram l) as [gl |] eqn:El; [| discriminate]. eapply EL; eauto. eapply Forall_impl; [| exact H]. intros z Hz. apply Hz.
  - intros v' g Hg Hi. inversion Hi as [| | | | | | | e e' He | | |]; subst. destruct i; try discriminate Hg. inversion He; subst. cbn [lgram] in Hg. destruct (lgram i) as [gb |] eqn:Eb; [| discriminate]. do 2 f_equal. eapply (proj2 IH); eauto.
  - intros v' g _ Hi. now inversion Hi.
  - intros n' b [= <- <-] b' g Hg Hi. eapply (proj1 IH); eauto.
Qed.
Lemma step_grammar e e' w g : step e e' -> lgram w = Some g -> (evals e w <-> evals e' w).
Proof.
  intros H G. split; intros He.
  - destruct (proj1 par_evals _ _ He _ (step_par _ _ H)) as (v' & V1 & V2). now rewrite (par_gram _ _ _ G V2) in V1.
  - apply (evals_grammar _ _ _ G). econstructor; [exact H |]. now apply (evals_grammar _ _ _ G).
Qed.
Lemma rewritten_grammar e e' w g : rewritten e e' -> lgram w = Some g -> (evals e w <-> evals e' w).
Proof.
  intros H G. induction H as [e | e e' e'' H _ IH | e e' e'' H _ IH]; [reflexivity | |].
  - rewrite (step_grammar _ _ _ _ H G). exact IH.
  - rewrite <- (step_grammar _ _ _ _ H G). exact IH.
Qed.
Lemma pars_split l : forall e r m, pars (l ++ e :: r) m -> exists l1 e1 r1, m = l1 ++ e1 :: r1 /\ pars l l1 /\ par e e1 /\ pars r r1.
Proof.
  induction l as [| x l IH]; intros e r m H; cbn [app] in H; inversion H as [| ? x' ? m' Hx Hm]; subst.
  - exists [], x', m'. repeat split; auto. constructor.
  - destruct (IH _ _ _ Hm) as (l1 & e1 & r1 & -> & H1 & H2 & H3). exists (x' :: l1), e1, r1. repeat split; auto. now constructor.
Qed.
Lemma par_fails e x : fails e x -> forall e', par e e' -> exists x', fails e' x'.
Proof.
  induction 1 as [f v args Hf Hv | f n b args Hf Hl | f args x Hff IH | f n b args x Hf Hl _ IH | d b x _ IH | l vs e r x Hs _ IH | l vs e r x Hs _ IH | e x _ IH | e n b x He _ IH]; intros e' Hi.
  - inversion Hi as [n0 b0 b' l l' Hn Hb Ha | | | | | | | | f0 f' l l' If Ia | |]; subst; [inversion Hf; subst; discriminate |]. destruct (proj1 par_evals _ _ Hf _ If) as (v' & V1 & V2). eexists. eapply fails_not_function; [exact V1 |]. rewrite (par_is_lam v v'); [exact Hv | apply (proj1 evals_evaluated _ _ Hf) | exact V2].
  - inversion Hi as [n0 b0 b' l l' Hn Hb Ha | | | | | | | | f0 f' l l' If Ia | |]; subst; [inversion Hf; subst; contradiction |]. destruct (proj1 par_evals _ _ Hf _ If) as (v' & V1 & V2). inversion V2; subst. eexists. eapply fails_arity; [exact V1 | now rewrite <- (pars_length _ _ Ia)].
  - inversion Hi as [n0 b0 b' l l' Hn Hb Ha | | | | | | | | f0 f' l l' If Ia | |]; subst; [inversion Hff |]. destruct (IH _ If) as [x' Hx]. eexists. apply fails_fun. exact Hx.
  - inversion Hi as [n0 b0 b' l l' Hn Hb Ha | | | | | | | | f0 f' l l' If Ia | |]; subst.
    + inversion Hf; subst. apply IH. apply par_sub; [exact Hb | now apply pars_inst].
    + destruct (proj1 par_evals _ _ Hf _ If) as (v' & V1 & V2). inversion V2 as [| | | | | | | | | n0 b0 b' Hb |]; subst. destruct (IH (lsub (inst l') b')) as [x' Hx]; [apply par_sub; [exact Hb | now apply pars_inst] |]. eexists. eapply fails_body; [exact V1 | symmetry; now apply pars_length | exact Hx].
  - inversion Hi as [| x0 x' b0 b' Hx Hb | | | | | | | | | x0 x' b0 b' Hx Hb]; subst.
    + apply IH. apply par_sub; [exact Hb | apply pars_inst; repeat constructor; exact Hx].
    + destruct (IH (lsub (inst [x']) b')) as [y Hy]; [apply par_sub; [exact Hb | apply pars_inst; repeat constructor; exact Hx] |]. eexists. apply fails_let. exact Hy.
  - inversion Hi as [| | | | | l0 l' Hl | | | | |]; subst. apply pars_split in Hl as (l1 & e1 & r1 & -> & H1 & H2 & _). destruct (proj2 par_evals _ _ Hs _ H1) as (vs' & V & _), (IH _ H2) as [x' Hx]. eexists. eapply fails_cat; eauto.
  - inversion Hi as [| | | | | | l0 l' Hl | | | |]; subst. apply pars_split in Hl as (l1 & e1 & r1 & -> & H1 & H2 & _). destruct (proj2 par_evals _ _ Hs _ H1) as (vs' & V & _), (IH _ H2) as [x' Hx]. eexists. eapply fails_alt; eauto.
  - inversion Hi; subst. edestruct IH as [x' Hx]; [eassumption |]. eexists. apply fails_fix. exact Hx.
  - inversion Hi; subst. edestruct (proj1 par_evals _ _ He) as (v' & V1 & V2); [eassumption |]. inversion V2; subst. edestruct IH as [x' Hx]; [eassumption |]. eexists. eapply fails_fix_body; eauto.
Qed.
Lemma steps_fails e e' x : steps e e' -> fails e x -> exists x', fails e' x'.
Proof.
  intros H. revert x. induction H as [e | e e' e'' H _ IH]; intros x Hx; [eauto |]. destruct (par_fails _ _ Hx _ (step_par _ _ H)) as [y Hy]. eauto.
Qed.
(** Two definitions, the second of which does not mention the first. *)
Lemma exchange_defs x y b : lsub (inst [x]) (lsub (inst [lren S y]) b) = lsub (inst [y]) (lsub (inst [lren S x]) (lren exchange b)).
Proof.
  rewrite !lsub_lsub. rewrite lsub_lren. apply lsub_ext. intros i.
  assert (S1 : forall z, lsub (inst [x]) (lren S z) = z) by (intros z; exact (inst_shift [x] z)).
  assert (S2 : forall z, lsub (inst [y]) (lren S z) = z) by (intros z; exact (inst_shift [y] z)).
  assert (N : forall z i, inst [z] (S i) = LVar i) by (intros z j; exact (inst_out [z] j)).
  destruct i as [| [| i]]; cbn [exchange].
  - rewrite N. change (inst [lren S y] 0) with (lren S y). rewrite S1. reflexivity.
  - rewrite N. change (inst [lren S x] 0) with (lren S x). rewrite S2. reflexivity.
  - rewrite !N. cbn [lsub]. rewrite !N. reflexivity.
Qed.
