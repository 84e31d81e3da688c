(** * UnusedFacts: evaluation does not look at definitions that are not used. *)
From Verif Require Import SpecUnused BetaFacts StepFacts.
From Coq Require Import List Lia PeanoNat.

Lemma lsub_used e : forall s s', (forall i, uses i e -> s i = s' i) -> lsub s e = lsub s' e.
Proof.
  induction e as [| w | l H | l H | i IH | i | o l IH H | n i IH | x y IH IH2] using lexpr_ind'; intros s s' E; cbn [lsub]; lazymatch goal with |- s _ = s' _ => idtac | _ => try reflexivity; f_equal end.
  - apply map_ext_in. intros x Hx. rewrite Forall_forall in H. apply H; [exact Hx |]. intros i Hi. apply E. econstructor; eauto.
  - apply map_ext_in. intros x Hx. rewrite Forall_forall in H. apply H; [exact Hx |]. intros i Hi. apply E. econstructor; eauto.
  - apply IH. intros k Hk. apply E. now constructor.
  - apply E. constructor.
  - apply IH. intros k Hk. apply E. now constructor.
  - apply map_ext_in. intros x Hx. rewrite Forall_forall in H. apply H; [exact Hx |]. intros i Hi. apply E. eapply uses_arg; eauto.
  - apply IH. intros k Hk. unfold ups. destruct (Nat.ltb_spec k n) as [Hl | Hl]; [reflexivity |]. rewrite E; [reflexivity |]. constructor. now replace (n + (k - n)) with k by lia.
  - apply IH. intros k Hk. apply E. now constructor.
  - apply IH2. intros k Hk. unfold ups. destruct (Nat.ltb_spec k 1) as [Hl | Hl]; [reflexivity |]. rewrite E; [reflexivity |]. apply uses_body. now replace (S (k - 1)) with k by lia.
Qed.
Lemma uses_lren e : forall r k, uses k (lren r e) -> exists j, uses j e /\ r j = k.
Proof.
  induction e as [| w | l H | l H | i IH | i | o l IH H | n i IH | x y IH IH2] using lexpr_ind'; intros r k U; cbn [lren] in U; inversion U as [k0 | k0 l0 z Hz Hu | k0 l0 z Hz Hu | k0 z Hu | k0 z l0 Hu | k0 z l0 z' Hz Hu | k0 n0 z Hu | k0 z b Hu | k0 z b Hu]; subst.
  - apply in_map_iff in Hz as (z0 & <- & Hz). rewrite Forall_forall in H. destruct (H z0 Hz r k Hu) as (j & J1 & J2). exists j. split; [econstructor; eauto | exact J2].
  - apply in_map_iff in Hz as (z0 & <- & Hz). rewrite Forall_forall in H. destruct (H z0 Hz r k Hu) as (j & J1 & J2). exists j. split; [econstructor; eauto | exact J2].
  - destruct (IH r k Hu) as (j & J1 & J2). exists j. split; [now constructor | exact J2].
  - exists i. split; [constructor | reflexivity].
  - destruct (IH r k Hu) as (j & J1 & J2). exists j. split; [now constructor | exact J2].
  - apply in_map_iff in Hz as (z0 & <- & Hz). rewrite Forall_forall in H. destruct (H z0 Hz r k Hu) as (j & J1 & J2). exists j. split; [eapply uses_arg; eauto | exact J2].
  - destruct (IH _ _ Hu) as (j & J1 & J2). unfold upr in J2. destruct (Nat.ltb_spec j n) as [Hl | Hl]; [lia |]. exists (j - n). split; [constructor; now replace (n + (j - n)) with j by lia | lia].
  - destruct (IH r k Hu) as (j & J1 & J2). exists j. split; [now constructor | exact J2].
  - destruct (IH2 _ _ Hu) as (j & J1 & J2). unfold upr in J2. destruct (Nat.ltb_spec j 1) as [Hl | Hl]; [lia |]. exists (j - 1). split; [apply uses_body; now replace (S (j - 1)) with j by lia | lia].
Qed.
Lemma uses_ups n s k j : uses (n + k) (ups n s j) -> exists i, j = n + i /\ uses k (s i).
Proof.
  unfold ups. destruct (Nat.ltb_spec j n) as [Hl | Hl]; intros U.
  - inversion U; subst. lia.
  - apply uses_lren in U as (i & U1 & U2). exists (j - n). split; [lia |]. now replace k with i by lia.
Qed.
Lemma uses_ups_low n s k j : k < n -> uses k (ups n s j) -> j = k.
Proof.
  unfold ups. destruct (Nat.ltb_spec j n) as [Hl | Hl]; intros Hk U; [inversion U; subst; reflexivity |]. apply uses_lren in U as (i & _ & U2). lia.
Qed.
Lemma uses_lsub e : forall s k, uses k (lsub s e) -> exists j, uses j e /\ uses k (s j).
Proof.
  induction e as [| w | l H | l H | i IH | i | o l IH H | n i IH | x y IH IH2] using lexpr_ind'; intros s k U; cbn [lsub] in U.
  1,2: inversion U.
  4: { exists i. split; [constructor | exact U]. }
  all: inversion U as [k0 | k0 l0 z Hz Hu | k0 l0 z Hz Hu | k0 z Hu | k0 z l0 Hu | k0 z l0 z' Hz Hu | k0 n0 z Hu | k0 z b Hu | k0 z b Hu]; subst.
  - apply in_map_iff in Hz as (z0 & <- & Hz). rewrite Forall_forall in H. destruct (H z0 Hz s k Hu) as (j & J1 & J2). exists j. split; [econstructor; eauto | exact J2].
  - apply in_map_iff in Hz as (z0 & <- & Hz). rewrite Forall_forall in H. destruct (H z0 Hz s k Hu) as (j & J1 & J2). exists j. split; [econstructor; eauto | exact J2].
  - destruct (IH s k Hu) as (j & J1 & J2). exists j. split; [now constructor | exact J2].
  - destruct (IH s k Hu) as (j & J1 & J2). exists j. split; [now constructor | exact J2].
  - apply in_map_iff in Hz as (z0 & <- & Hz). rewrite Forall_forall in H. destruct (H z0 Hz s k Hu) as (j & J1 & J2). exists j. split; [eapply uses_arg; eauto | exact J2].
  - destruct (IH _ _ Hu) as (j & J1 & J2). apply uses_ups in J2 as (m & -> & J2). exists m. split; [now constructor | exact J2].
  - destruct (IH s k Hu) as (j & J1 & J2). exists j. split; [now constructor | exact J2].
  - destruct (IH2 _ _ Hu) as (j & J1 & J2). apply (uses_ups 1) in J2 as (m & -> & J2). exists m. split; [now apply uses_body | exact J2].
Qed.
Lemma unused_under s b : ~ uses 0 b -> ~ uses 0 (lsub (ups 1 s) b).
Proof. intros H U. apply uses_lsub in U as (j & J1 & J2). apply uses_ups_low in J2; [| lia]. subst j. auto. Qed.
Lemma unused_ren r b : ~ uses 0 b -> ~ uses 0 (lren (upr 1 r) b).
Proof. intros H U. apply uses_lren in U as (j & J1 & J2). unfold upr in J2. destruct (Nat.ltb_spec j 1) as [Hl | Hl]; [| lia]. replace j with 0 in J1 by lia. auto. Qed.

Lemma in_refl e : indifferent e e.
Proof.
  induction e as [| w | l H | l H | i IH | i | o l IH H | n i IH | x y IH IH2] using lexpr_ind'; try (now constructor); try (apply in_let; assumption); constructor; try assumption; induction H; constructor; auto.
Qed.
Lemma in_sym : (forall e e', indifferent e e' -> indifferent e' e) /\ (forall l l', indifferents l l' -> indifferents l' l).
Proof. apply indifferent_mutind; intros; first [solve [apply in_let; auto] | solve [constructor; auto]]. Qed.
Lemma in_ren : (forall e e', indifferent e e' -> forall r, indifferent (lren r e) (lren r e')) /\ (forall l l', indifferents l l' -> forall r, indifferents (map (lren r) l) (map (lren r) l')).
Proof. apply indifferent_mutind; intros; cbn [lren map]; first [solve [apply in_let; auto] | solve [constructor; auto using unused_ren]]. Qed.
Lemma in_sub : (forall e e', indifferent e e' -> forall s s', (forall i, indifferent (s i) (s' i)) -> indifferent (lsub s e) (lsub s' e'))
  /\ (forall l l', indifferents l l' -> forall s s', (forall i, indifferent (s i) (s' i)) -> indifferents (map (lsub s) l) (map (lsub s') l')).
Proof.
  assert (Up : forall n s s', (forall i, indifferent (s i) (s' i)) -> forall i, indifferent (ups n s i) (ups n s' i)).
  { intros n s s' H i. unfold ups. destruct (Nat.ltb i n); [constructor |]. now apply in_ren. }
  apply indifferent_mutind; intros; cbn [lsub map]; first [solve [auto] | solve [apply in_let; auto] | solve [constructor; auto using unused_under]].
Qed.
Lemma in_nth : forall l l', indifferents l l' -> forall i, match nth_error l i, nth_error l' i with Some x, Some y => indifferent x y | None, None => True | _, _ => False end.
Proof. induction 1 as [| x x' l l' Hx _ IH]; intros [| i]; cbn; auto. apply IH. Qed.
Lemma in_length l l' : indifferents l l' -> length l = length l'.
Proof. induction 1; cbn; congruence. Qed.
Lemma in_app l l' m m' : indifferents l l' -> indifferents m m' -> indifferents (l ++ m) (l' ++ m').
Proof. induction 1; cbn; [auto | intros; constructor; auto]. Qed.
Lemma in_rev l l' : indifferents l l' -> indifferents (rev l) (rev l').
Proof. induction 1 as [| x x' l l' Hx _ IH]; cbn [rev]; [constructor |]. apply in_app; [exact IH |]. repeat constructor. exact Hx. Qed.
Lemma in_inst l l' : indifferents l l' -> forall i, indifferent (inst l i) (inst l' i).
Proof.
  intros H i. unfold inst. pose proof (in_nth _ _ (in_rev _ _ H) i) as K. destruct (nth_error (rev l) i), (nth_error (rev l') i); try contradiction; [exact K |]. rewrite (in_length _ _ H). constructor.
Qed.
Lemma in_is_lam e e' : indifferent e e' -> is_lam e' = is_lam e.
Proof. now destruct 1. Qed.
Lemma in_evals : (forall e v, evals e v -> forall e', indifferent e e' -> exists v', evals e' v' /\ indifferent v v')
  /\ (forall l vs, evals_list l vs -> forall l', indifferents l l' -> exists vs', evals_list l' vs' /\ indifferents vs vs').
Proof.
  enough (K : (forall e v, evals e v -> forall e', indifferent e e' -> exists v', evals e' v' /\ indifferent v v') /\ True) by
    (split; [apply K |]; intros l vs H; induction H as [| x v l l' Hx _ IH]; intros m Hm; inversion Hm; subst;
      [exists []; split; constructor |
       match goal with A : indifferent x ?y |- _ => destruct (proj1 K _ _ Hx _ A) as (v' & V1 & V2) end;
       match goal with A : indifferents l ?y |- _ => destruct (IH _ A) as (vs' & W1 & W2) end; exists (v' :: vs'); split; constructor; auto]).
  refine (conj (evals_mi (fun e v => forall e', indifferent e e' -> exists v', evals e' v' /\ indifferent v v') (fun l vs => forall l', indifferents l l' -> exists vs', evals_list l' vs' /\ indifferents vs vs') _ _ _ _ _ _ _ _ _ _ _ _) Logic.I).
  - intros e' H. inversion H; subst. exists LEps. split; constructor.
  - intros s e' H. inversion H; subst. exists (LLit s). split; constructor.
  - intros i e' H. inversion H; subst. exists (LVar i). split; constructor.
  - intros n b e' H. inversion H; subst. eexists. split; [constructor | exact H].
  - intros l vs _ IH e' H. inversion H; subst. edestruct IH as (vs' & V1 & V2); [eassumption |]. exists (LCat vs'). split; constructor; assumption.
  - intros l vs _ IH e' H. inversion H; subst. edestruct IH as (vs' & V1 & V2); [eassumption |]. exists (LAlt vs'). split; constructor; assumption.
  - intros e n b b' _ IH1 _ IH2 e' H. inversion H; subst. edestruct IH1 as (f & F1 & F2); [eassumption |]. inversion F2; subst. edestruct IH2 as (c & C1 & C2); [eassumption |]. eexists. split; [eapply ev_fix; eassumption |]. constructor. now constructor.
  - intros e v _ IH Hl e' H. inversion H; subst. edestruct IH as (f & F1 & F2); [eassumption |]. exists (LFix f). split; [apply ev_fix_other; [exact F1 | now rewrite (in_is_lam _ _ F2)] | now constructor].
  - intros f n b args v _ IH1 Hl _ IH2 e' H. inversion H as [| | | | | | | f0 f' l l' Hf Ha | |]; subst. edestruct IH1 as (f1 & F1 & F2); [exact Hf |]. inversion F2 as [| | | | | | | | n0 b0 b' Hb |]; subst.
    destruct (IH2 (lsub (inst l') b')) as (w & W1 & W2); [apply in_sub; [exact Hb | now apply in_inst] |]. exists w. split; [eapply ev_call; [exact F1 | symmetry; now apply in_length | exact W1] | exact W2].
  - intros x b v _ IH e' H. inversion H as [x0 x' b0 b' N1 N2 Hb | | | | | | | | | x0 x' b0 b' Hx Hb]; subst.
    + destruct (IH (lsub (inst [x']) b')) as (w & W1 & W2).
      * rewrite (lsub_used b' (inst [x']) (inst [x])); [apply in_sub; [exact Hb | intros i; apply in_refl] |]. intros [| i] Hi; [now elim N2 | destruct i; reflexivity].
      * exists w. split; [now constructor | exact W2].
    + destruct (IH (lsub (inst [x']) b')) as (w & W1 & W2); [apply in_sub; [exact Hb | apply in_inst; repeat constructor; exact Hx] |]. exists w. split; [now constructor | exact W2].
  - intros l' H. inversion H; subst. exists []. split; constructor.
  - intros x v l vs _ IH1 _ IH2 l' H. inversion H; subst. edestruct IH1 as (v' & V1 & V2); [eassumption |]. edestruct IH2 as (vs' & W1 & W2); [eassumption |]. exists (v' :: vs'). split; constructor; assumption.
Qed.
(** In a grammar there is nothing left to differ. *)
Lemma in_gram v : forall v' g, lgram v = Some g -> indifferent v v' -> v' = v.
Proof.
  assert (EL : forall l, Forall (fun v => forall v' g, lgram v = Some g -> indifferent v v' -> v' = v) l -> forall l' gs, each lgram l = Some gs -> indifferents l l' -> l' = l).
  { induction 1 as [| x l Hx _ IH]; intros l' gs E H; inversion H; subst; [reflexivity |]. cbn in E. destruct (lgram x) as [g |] eqn:Eg; [| discriminate]. destruct (each lgram l) as [gl |] eqn:El; [| discriminate]. f_equal; eauto. }
  enough (K : forall v, (forall v' g, lgram v = Some g -> indifferent v v' -> v' = v) /\ (forall n b, v = LLam n b -> forall b' g, lgram b = Some g -> indifferent b b' -> b' = b)) by (intros v' g; apply (proj1 (K v))).
  clear v. intros v. induction v as [| w | l H | l H | i IH | i | o l IH H | n i IH | x y IH IH2] using lexpr_ind'; split; try discriminate.
  - intros v' g _ Hi. now inversion Hi.
  - intros v' g _ Hi. now inversion Hi.
  - intros v' g Hg Hi. inversion Hi; subst. f_equal. cbn in Hg. destruct (each lgram l) as [gl |] eqn:El; [| discriminate]. eapply EL; eauto. eapply Forall_impl; [| exact H]. intros z Hz. apply Hz.
  - intros v' g Hg Hi. inversion Hi; subst. f_equal. cbn in Hg. destruct (each lgram l) as [gl |] eqn:El; [| discriminate]. eapply EL; eauto. eapply Forall_impl; [| exact H]. intros z Hz. apply Hz.
  - intros v' g Hg Hi. inversion Hi as [| | | | | | e e' He | | |]; subst. destruct i; try discriminate Hg. inversion He; subst. cbn [lgram] in Hg. destruct (lgram i) as [gb |] eqn:Eb; [| discriminate]. do 2 f_equal. eapply (proj2 IH); eauto.
  - intros v' g _ Hi. now inversion Hi.
  - intros n' b [= <- <-] b' g Hg Hi. eapply (proj1 IH); eauto.
Qed.
Lemma in_split l : forall e r m, indifferents (l ++ e :: r) m -> exists l1 e1 r1, m = l1 ++ e1 :: r1 /\ indifferents l l1 /\ indifferent e e1 /\ indifferents r r1.
Proof.
  induction l as [| x l IH]; intros e r m H; cbn [app] in H; inversion H as [| ? x' ? m' Hx Hm]; subst.
  - exists [], x', m'. repeat split; auto. constructor.
  - destruct (IH _ _ _ Hm) as (l1 & e1 & r1 & -> & H1 & H2 & H3). exists (x' :: l1), e1, r1. repeat split; auto. now constructor.
Qed.
Lemma in_fails e x : fails e x -> forall e', indifferent e e' -> exists x', fails e' x'.
Proof.
  induction 1 as [f v args Hf Hv | f n b args Hf Hl | f args x _ IH | f n b args x Hf Hl _ IH | d b x _ IH | l vs e r x Hs _ IH | l vs e r x Hs _ IH | e x _ IH | e n b x He _ IH]; intros e' Hi.
  - inversion Hi as [| | | | | | | f0 f' l l' If Ia | |]; subst. destruct (proj1 in_evals _ _ Hf _ If) as (v' & V1 & V2). eexists. eapply fails_not_function; [exact V1 | now rewrite (in_is_lam _ _ V2)].
  - inversion Hi as [| | | | | | | f0 f' l l' If Ia | |]; subst. destruct (proj1 in_evals _ _ Hf _ If) as (v' & V1 & V2). inversion V2; subst. eexists. eapply fails_arity; [exact V1 | now rewrite <- (in_length _ _ Ia)].
  - inversion Hi as [| | | | | | | f0 f' l l' If Ia | |]; subst. destruct (IH _ If) as [x' Hx]. eexists. apply fails_fun. exact Hx.
  - inversion Hi as [| | | | | | | f0 f' l l' If Ia | |]; subst. destruct (proj1 in_evals _ _ Hf _ If) as (v' & V1 & V2). inversion V2 as [| | | | | | | | n0 b0 b' Hb |]; subst. destruct (IH (lsub (inst l') b')) as [x' Hx]; [apply in_sub; [exact Hb | now apply in_inst] |]. eexists. eapply fails_body; [exact V1 | symmetry; now apply in_length | exact Hx].
  - inversion Hi as [x0 x' b0 b' N1 N2 Hb | | | | | | | | | x0 x' b0 b' Hx Hb]; subst.
    + destruct (IH (lsub (inst [x']) b')) as [y Hy].
      * rewrite (lsub_used b' (inst [x']) (inst [d])); [apply in_sub; [exact Hb | intros i; apply in_refl] |]. intros [| i] Hi'; [now elim N2 | destruct i; reflexivity].
      * eexists. apply fails_let. exact Hy.
    + destruct (IH (lsub (inst [x']) b')) as [y Hy]; [apply in_sub; [exact Hb | apply in_inst; repeat constructor; exact Hx] |]. eexists. apply fails_let. exact Hy.
  - inversion Hi as [| | | | l0 l' Hl | | | | |]; subst. apply in_split in Hl as (l1 & e1 & r1 & -> & H1 & H2 & _). destruct (proj2 in_evals _ _ Hs _ H1) as (vs' & V & _), (IH _ H2) as [x' Hx]. eexists. eapply fails_cat; eauto.
  - inversion Hi as [| | | | | l0 l' Hl | | | |]; subst. apply in_split in Hl as (l1 & e1 & r1 & -> & H1 & H2 & _). destruct (proj2 in_evals _ _ Hs _ H1) as (vs' & V & _), (IH _ H2) as [x' Hx]. eexists. eapply fails_alt; eauto.
  - inversion Hi; subst. edestruct IH as [x' Hx]; [eassumption |]. eexists. apply fails_fix. exact Hx.
  - inversion Hi; subst. edestruct (proj1 in_evals _ _ He) as (v' & V1 & V2); [eassumption |]. inversion V2; subst. edestruct IH as [x' Hx]; [eassumption |]. eexists. eapply fails_fix_body; eauto.
Qed.
