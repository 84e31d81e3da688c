(** * RewriteBack: evaluation and failure along standard reductions, backwards. *)
From Verif Require Import SpecRewrite BetaFacts StepFacts.
From Coq Require Import List Lia PeanoNat.

Lemma whs_value v w : evaluated v -> whs v w -> w = v.
Proof. intros Hv H. inversion H as [| ? ? ? Hw]; subst; [reflexivity |]. inversion Hw; subst; cbn in Hv; contradiction. Qed.
Lemma st_lam_inv v n c : evaluated v -> st v (LLam n c) -> exists b, v = LLam n b /\ st b c.
Proof. intros Hv H. inversion H as [| | | | | | | e n0 b c0 Hw Hb |]; subst. apply whs_value in Hw; [| exact Hv]. subst v. eauto. Qed.
Lemma st_is_lam v w : evaluated v -> st v w -> is_lam w = is_lam v.
Proof. intros Hv H. inversion H as [? W | ? ? W | ? ? W | ? ? ? W | ? ? ? W | ? ? ? W | ? ? ? ? ? W | ? ? ? ? W | ? ? ? ? ? W]; subst; apply whs_value in W; auto; subst v; reflexivity. Qed.
Lemma stl_length l l' : st_list l l' -> length l = length l'.
Proof. induction 1; cbn; congruence. Qed.
Lemma st_evals : (forall e v, evals e v -> forall e0, st e0 e -> exists v0, evals e0 v0 /\ st v0 v)
  /\ (forall l vs, evals_list l vs -> forall l0, st_list l0 l -> exists vs0, evals_list l0 vs0 /\ st_list vs0 vs).
Proof.
  apply evals_mut.
  - intros e0 H. inversion H; subst. exists LEps. split; [eapply whs_evals; [eassumption | constructor] | apply st_refl].
  - intros s e0 H. inversion H; subst. exists (LLit s). split; [eapply whs_evals; [eassumption | constructor] | apply st_refl].
  - intros i e0 H. inversion H; subst. exists (LVar i). split; [eapply whs_evals; [eassumption | constructor] | apply st_refl].
  - intros n b e0 H. inversion H; subst. eexists. split; [eapply whs_evals; [eassumption | constructor] |]. eapply st_lam; [apply whs_refl | assumption].
  - intros l vs _ IH e0 H. inversion H; subst. edestruct IH as (vs0 & V1 & V2); [eassumption |]. exists (LCat vs0). split; [eapply whs_evals; [eassumption | now constructor] | eapply st_cat; [apply whs_refl | exact V2]].
  - intros l vs _ IH e0 H. inversion H; subst. edestruct IH as (vs0 & V1 & V2); [eassumption |]. exists (LAlt vs0). split; [eapply whs_evals; [eassumption | now constructor] | eapply st_alt; [apply whs_refl | exact V2]].
  - intros e n b b' _ IH1 _ IH2 e0 H. inversion H as [| | | | | e1 x y Hw Hx | | |]; subst. destruct (IH1 _ Hx) as (v0 & V1 & V2). apply st_lam_inv in V2 as (b0 & -> & Hb); [| apply (proj1 evals_evaluated _ _ V1)].
    destruct (IH2 _ Hb) as (b1 & B1 & B2). eexists. split; [eapply whs_evals; [exact Hw | eapply ev_fix; eassumption] |]. eapply st_fix; [apply whs_refl |]. eapply st_lam; [apply whs_refl | exact B2].
  - intros e v _ IH1 Hl e0 H. inversion H as [| | | | | e1 x y Hw Hx | | |]; subst. destruct (IH1 _ Hx) as (v0 & V1 & V2). exists (LFix v0). split; [eapply whs_evals; [exact Hw | apply ev_fix_other; [exact V1 |]] | eapply st_fix; [apply whs_refl | exact V2]].
    rewrite <- (st_is_lam v0 v); [exact Hl | apply (proj1 evals_evaluated _ _ V1) | exact V2].
  - intros f n b args v _ IH1 Hl _ IH2 e0 H. inversion H as [| | | | | | e1 f0 g l l' Hw Hf Ha | |]; subst. destruct (IH1 _ Hf) as (v0 & V1 & V2). apply st_lam_inv in V2 as (b0 & -> & Hb); [| apply (proj1 evals_evaluated _ _ V1)].
    destruct (IH2 (lsub (inst l) b0)) as (w & W1 & W2); [apply st_lsub_both; [exact Hb | now apply st_inst] |]. exists w. split; [| exact W2]. eapply whs_evals; [exact Hw |]. eapply ev_call; [exact V1 | now apply stl_length | exact W1].
  - intros x b v _ IH e0 H. inversion H as [| | | | | | | | e1 x0 y b0 c Hw Hx Hb]; subst. destruct (IH (lsub (inst [x0]) b0)) as (w & W1 & W2); [apply st_lsub_both; [exact Hb | apply st_inst; repeat constructor; exact Hx] |]. exists w. split; [| exact W2]. eapply whs_evals; [exact Hw |]. now constructor.
  - intros l0 H. inversion H; subst. exists []. split; constructor.
  - intros x v l vs _ IH1 _ IH2 l0 H. inversion H; subst. edestruct IH1 as (v0 & V1 & V2); [eassumption |]. edestruct IH2 as (vs0 & W1 & W2); [eassumption |]. exists (v0 :: vs0). split; constructor; assumption.
Qed.
Lemma wh_fails x y : wh x y -> forall z, fails y z -> exists z', fails x z'.
Proof.
  induction 1 as [n b args Hl | x b | f g args Hw IH]; intros z Hz.
  - exists z. eapply fails_body; [constructor | exact Hl | exact Hz].
  - exists z. now apply fails_let.
  - inversion Hz as [f0 v l Hv Hn | f0 n b l Hv Hn | f0 l z0 Hf | f0 n b l z0 Hv Hn Hb | | | | |]; subst.
    + eexists. eapply fails_not_function; [eapply wh_evals; eassumption | exact Hn].
    + eexists. eapply fails_arity; [eapply wh_evals; eassumption | exact Hn].
    + destruct (IH _ Hf) as [z' Hz']. eexists. apply fails_fun. exact Hz'.
    + eexists. eapply fails_body; [eapply wh_evals; eassumption | reflexivity | exact Hb].
Qed.
Lemma whs_fails x y : whs x y -> forall z, fails y z -> exists z', fails x z'.
Proof. induction 1 as [x | x y z Hw _ IH]; intros f Hf; [eauto |]. destruct (IH _ Hf) as [g Hg]. eapply wh_fails; eassumption. Qed.
Lemma st_split l : forall e r m, st_list m (l ++ e :: r) -> exists l1 e1 r1, m = l1 ++ e1 :: r1 /\ st_list l1 l /\ st e1 e /\ st_list r1 r.
Proof.
  induction l as [| x l IH]; intros e r m H; cbn [app] in H; inversion H as [| x' ? m' ? Hx Hm]; subst.
  - exists [], x', m'. repeat split; auto. constructor.
  - destruct (IH _ _ _ Hm) as (l1 & e1 & r1 & -> & H1 & H2 & H3). exists (x' :: l1), e1, r1. repeat split; auto. now constructor.
Qed.
Lemma st_fails e x : fails e x -> forall e0, st e0 e -> exists x0, fails e0 x0.
Proof.
  induction 1 as [f v args Hf Hv | f n b args Hf Hl | f args x Hff IH | f n b args x Hf Hl _ IH | d b x _ IH | l vs e r x Hs _ IH | l vs e r x Hs _ IH | e x _ IH | e n b x He _ IH]; intros e0 Hi.
  - inversion Hi as [| | | | | | e1 f0 g l l' Hw If Ha | |]; subst. destruct (proj1 st_evals _ _ Hf _ If) as (v0 & V1 & V2). eapply whs_fails; [exact Hw |]. eapply fails_not_function; [exact V1 |]. rewrite <- (st_is_lam v0 v); [exact Hv | apply (proj1 evals_evaluated _ _ V1) | exact V2].
  - inversion Hi as [| | | | | | e1 f0 g l l' Hw If Ha | |]; subst. destruct (proj1 st_evals _ _ Hf _ If) as (v0 & V1 & V2). apply st_lam_inv in V2 as (b0 & -> & Hb); [| apply (proj1 evals_evaluated _ _ V1)]. eapply whs_fails; [exact Hw |]. eapply fails_arity; [exact V1 |]. now rewrite (stl_length _ _ Ha).
  - inversion Hi as [| | | | | | e1 f0 g l l' Hw If Ha | |]; subst. destruct (IH _ If) as [y Hy]. eapply whs_fails; [exact Hw |]. apply fails_fun. exact Hy.
  - inversion Hi as [| | | | | | e1 f0 g l l' Hw If Ha | |]; subst. destruct (proj1 st_evals _ _ Hf _ If) as (v0 & V1 & V2). apply st_lam_inv in V2 as (b0 & -> & Hb); [| apply (proj1 evals_evaluated _ _ V1)].
    destruct (IH (lsub (inst l) b0)) as [y Hy]; [apply st_lsub_both; [exact Hb | now apply st_inst] |]. eapply whs_fails; [exact Hw |]. eapply fails_body; [exact V1 | now apply stl_length | exact Hy].
  - inversion Hi as [| | | | | | | | e1 x0 y b0 c Hw Hx Hb]; subst. destruct (IH (lsub (inst [x0]) b0)) as [z Hz]; [apply st_lsub_both; [exact Hb | apply st_inst; repeat constructor; exact Hx] |]. eapply whs_fails; [exact Hw |]. apply fails_let. exact Hz.
  - inversion Hi as [| | | e1 l0 l' Hw Hl | | | | |]; subst. apply st_split in Hl as (l1 & e2 & r1 & -> & H1 & H2 & _). destruct (proj2 st_evals _ _ Hs _ H1) as (vs' & V & _), (IH _ H2) as [y Hy]. eapply whs_fails; [exact Hw |]. eapply fails_cat; eauto.
  - inversion Hi as [| | | | e1 l0 l' Hw Hl | | | |]; subst. apply st_split in Hl as (l1 & e2 & r1 & -> & H1 & H2 & _). destruct (proj2 st_evals _ _ Hs _ H1) as (vs' & V & _), (IH _ H2) as [y Hy]. eapply whs_fails; [exact Hw |]. eapply fails_alt; eauto.
  - inversion Hi as [| | | | | e1 x0 y Hw Hx | | |]; subst. destruct (IH _ Hx) as [z Hz]. eapply whs_fails; [exact Hw |]. apply fails_fix. exact Hz.
  - inversion Hi as [| | | | | e1 x0 y Hw Hx | | |]; subst. destruct (proj1 st_evals _ _ He _ Hx) as (v0 & V1 & V2). apply st_lam_inv in V2 as (b0 & -> & Hb); [| apply (proj1 evals_evaluated _ _ V1)].
    destruct (IH _ Hb) as [z Hz]. eapply whs_fails; [exact Hw |]. eapply fails_fix_body; eassumption.
Qed.
Lemma steps_fails_back e e' x : steps e e' -> fails e' x -> exists x0, fails e x0.
Proof. intros H Hx. eapply st_fails; [exact Hx |]. now apply steps_st. Qed.
