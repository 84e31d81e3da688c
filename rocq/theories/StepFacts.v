(** * StepFacts: evaluation against beta reduction in any order. *)
From Verif Require Import SpecBeta BetaFacts.
From Coq Require Import Lia.

Scheme evals_mi := Minimality for evals Sort Prop
with evals_list_mi := Minimality for evals_list Sort Prop.
Combined Scheme evals_mut from evals_mi, evals_list_mi.

(** ** Many steps *)
Lemma steps_trans x y z : steps x y -> steps y z -> steps x z.
Proof. induction 1; auto. intros. econstructor; eauto. Qed.
Lemma steps_one x y : step x y -> steps x y.
Proof. intros. econstructor; [eassumption | constructor]. Qed.
Lemma steps_fix x y : steps x y -> steps (LFix x) (LFix y).
Proof. induction 1; econstructor; eauto using step. Qed.
Lemma steps_lam n x y : steps x y -> steps (LLam n x) (LLam n y).
Proof. induction 1; econstructor; eauto using step. Qed.
Lemma steps_fun f g args : steps f g -> steps (LCall f args) (LCall g args).
Proof. induction 1; econstructor; eauto using step. Qed.
Lemma steps_cat l x y r : steps x y -> steps (LCat (l ++ x :: r)) (LCat (l ++ y :: r)).
Proof. induction 1; econstructor; eauto using step. Qed.
Lemma steps_alt l x y r : steps x y -> steps (LAlt (l ++ x :: r)) (LAlt (l ++ y :: r)).
Proof. induction 1; econstructor; eauto using step. Qed.
Lemma steps_cat_all l l' : Forall2 steps l l' -> forall p, steps (LCat (p ++ l)) (LCat (p ++ l')).
Proof.
  induction 1 as [| x y l l' H _ IH]; intros p; [constructor |].
  eapply steps_trans; [apply steps_cat, H |]. specialize (IH (p ++ [y])). now rewrite <- !app_assoc in IH.
Qed.
Lemma steps_alt_all l l' : Forall2 steps l l' -> forall p, steps (LAlt (p ++ l)) (LAlt (p ++ l')).
Proof.
  induction 1 as [| x y l l' H _ IH]; intros p; [constructor |].
  eapply steps_trans; [apply steps_alt, H |]. specialize (IH (p ++ [y])). now rewrite <- !app_assoc in IH.
Qed.

(** Evaluation takes beta steps only. *)
Lemma evals_steps :
  (forall e v, evals e v -> steps e v) /\ (forall l l', evals_list l l' -> Forall2 steps l l').
Proof.
  apply evals_mut; intros; try (constructor; fail).
  - now apply (steps_cat_all l l') with (p := []).
  - now apply (steps_alt_all l l') with (p := []).
  - apply steps_fix. eapply steps_trans; [eassumption |]. now apply steps_lam.
  - now apply steps_fix.
  - eapply steps_trans; [apply steps_fun; eassumption |]. econstructor; [now apply step_beta | assumption].
  - econstructor; [apply step_let | assumption].
  - now constructor.
Qed.

(** Evaluation is deterministic. *)
Lemma evals_det :
  (forall e v, evals e v -> forall v', evals e v' -> v' = v) /\
  (forall l m, evals_list l m -> forall m', evals_list l m' -> m' = m).
Proof.
  apply evals_mut; intros.
  - now inversion H.
  - now inversion H.
  - now inversion H.
  - now inversion H.
  - inversion H1; subst. now rewrite (H0 _ H3).
  - inversion H1; subst. now rewrite (H0 _ H3).
  - inversion H3; subst.
    + match goal with h : evals e (LLam _ _) |- _ => apply H0 in h; inversion h; subst end. f_equal. f_equal. auto.
    + match goal with h : evals e _ |- _ => apply H0 in h; subst end. discriminate.
  - inversion H2; subst.
    + apply H0 in H4. subst. discriminate H1.
    + now rewrite (H0 _ H4).
  - inversion H4; subst. match goal with h : evals f (LLam _ _) |- _ => apply H0 in h; inversion h; subst end. now apply H3.
  - inversion H1; subst. now apply H0.
  - now inversion H.
  - inversion H3; subst. now rewrite (H0 _ H6), (H2 _ H8).
Qed.

(** ** What evaluation leaves *)
Lemma evaluated_list l : (fix go l := match l with [] => True | x :: l' => evaluated x /\ go l' end) l <-> Forall evaluated l.
Proof.
  induction l as [| x l IH]; split; intros H; auto.
  - destruct H. constructor; [assumption | now apply IH].
  - inversion H; subst. split; [assumption | now apply IH].
Qed.
Lemma evals_evaluated :
  (forall e v, evals e v -> evaluated v) /\ (forall l m, evals_list l m -> Forall evaluated m).
Proof.
  apply evals_mut; intros; try exact Logic.I; auto.
  - cbn. now apply evaluated_list.
  - cbn. now apply evaluated_list.
  - cbn. auto.
  - cbn. split; [assumption |]. destruct v; auto. discriminate H1.
Qed.

(** ** Scoping *)
Lemma scoped_list n l : (fix go l := match l with [] => True | x :: l' => scoped n x /\ go l' end) l <-> Forall (scoped n) l.
Proof.
  induction l as [| x l IH]; split; intros H; auto.
  - destruct H. constructor; [assumption | now apply IH].
  - inversion H; subst. split; [assumption | now apply IH].
Qed.
Lemma Forall_map_impl {A B} (P : A -> Prop) (Q : B -> Prop) (f : A -> B) l :
  Forall (fun x => P x -> Q (f x)) l -> Forall P l -> Forall Q (map f l).
Proof. induction 1; intros H1; inversion H1; subst; cbn; auto. Qed.
Lemma scoped_lsub e : forall n m s, (forall i, i < n -> scoped m (s i)) -> scoped n e -> scoped m (lsub s e).
Proof.
  assert (R : forall t n m r, (forall i, i < n -> r i < m) -> scoped n t -> scoped m (lren r t)).
  { induction t as [| s | l H | l H | i IH | i | o l IH H | k i IH | x y IH IH2] using lexpr_ind';
      intros n m r Hr He; cbn in *; auto.
    - apply scoped_list in He. apply scoped_list. eapply Forall_map_impl; [| exact He]. eapply Forall_impl; [| exact H]. cbn. eauto.
    - apply scoped_list in He. apply scoped_list. eapply Forall_map_impl; [| exact He]. eapply Forall_impl; [| exact H]. cbn. eauto.
    - eauto.
    - destruct He as [H1 H2]. split; [eauto |]. apply scoped_list in H2. apply scoped_list.
      eapply Forall_map_impl; [| exact H2]. eapply Forall_impl; [| exact H]. cbn. eauto.
    - apply (IH (k + n)); auto. intros i0 Hi. unfold upr. ltb_cases; [lia |]. specialize (Hr (i0 - k)). lia.
    - destruct He as [H1 H2]. split; [eauto |]. apply (IH2 (S n)); auto. intros i0 Hi. unfold upr. ltb_cases; [lia |].
      specialize (Hr (i0 - 1)). lia. }
  assert (U : forall k n m s, (forall i, i < n -> scoped m (s i)) -> forall i, i < k + n -> scoped (k + m) (ups k s i)).
  { intros k n m s H i Hi. unfold ups. ltb_cases; [cbn; lia |]. apply (R _ m); [intros; lia |]. apply H. lia. }
  induction e as [| s | l H | l H | i IH | i | o l IH H | k i IH | x y IH IH2] using lexpr_ind';
    intros n m s0 Hr He; cbn in *; auto.
  - apply scoped_list in He. apply scoped_list. eapply Forall_map_impl; [| exact He]. eapply Forall_impl; [| exact H]. cbn. eauto.
  - apply scoped_list in He. apply scoped_list. eapply Forall_map_impl; [| exact He]. eapply Forall_impl; [| exact H]. cbn. eauto.
  - eauto.
  - destruct He as [H1 H2]. split; [eauto |]. apply scoped_list in H2. apply scoped_list.
    eapply Forall_map_impl; [| exact H2]. eapply Forall_impl; [| exact H]. cbn. eauto.
  - apply (IH (k + n)); [| assumption]. now apply U.
  - destruct He as [H1 H2]. split; [eauto |]. apply (IH2 (S n)); auto. intros. apply (U 1 n m s0); auto.
Qed.
Lemma scoped_inst n args e : Forall (scoped n) args -> scoped (length args + n) e -> scoped n (lsub (inst args) e).
Proof.
  intros Ha He. apply (scoped_lsub e (length args + n)); [| assumption]. intros i Hi. unfold inst.
  destruct (nth_error (rev args) i) eqn:E.
  - apply nth_error_In in E. apply in_rev in E. now apply (proj1 (Forall_forall _ _) Ha).
  - apply nth_error_None in E. rewrite rev_length in E. cbn. lia.
Qed.
Lemma evals_scoped :
  (forall e v, evals e v -> forall n, scoped n e -> scoped n v) /\
  (forall l m, evals_list l m -> forall n, Forall (scoped n) l -> Forall (scoped n) m).
Proof.
  apply evals_mut; intros; cbn in *; auto.
  - apply scoped_list. match goal with h : _ |- _ => apply scoped_list in h; auto end.
  - apply scoped_list. match goal with h : _ |- _ => apply scoped_list in h; auto end.
  - apply H3. destruct H4 as [H5 H6]. apply scoped_list in H6. apply scoped_inst; [assumption |]. subst n.
    now apply (H0 n0).
  - destruct H1 as [H1 H2]. apply H0. apply (scoped_inst n [x]); auto.
  - inversion H3; subst. constructor; auto.
Qed.

(** ** Weak head reduction *)
Inductive wh : lexpr -> lexpr -> Prop :=
| wh_beta n b args : length args = n -> wh (LCall (LLam n b) args) (lsub (inst args) b)
| wh_let x b : wh (LLet x b) (lsub (inst [x]) b)
| wh_fun f g args : wh f g -> wh (LCall f args) (LCall g args).
Inductive whs : lexpr -> lexpr -> Prop :=
| whs_refl x : whs x x
| whs_step x y z : wh x y -> whs y z -> whs x z.
Lemma whs_trans x y z : whs x y -> whs y z -> whs x z.
Proof. induction 1; auto. intros. econstructor; eauto. Qed.
Lemma whs_fun f g args : whs f g -> whs (LCall f args) (LCall g args).
Proof. induction 1; econstructor; eauto using wh. Qed.
Lemma wh_lsub x y : wh x y -> forall s, wh (lsub s x) (lsub s y).
Proof.
  induction 1; intros s; cbn.
  - rewrite inst_lsub. rewrite <- H. apply wh_beta. apply map_length.
  - rewrite inst_lsub. apply wh_let.
  - now constructor.
Qed.
Lemma whs_lsub x y : whs x y -> forall s, whs (lsub s x) (lsub s y).
Proof. induction 1; intros; econstructor; eauto using wh_lsub. Qed.

(** ** Standard reductions *)
Inductive st : lexpr -> lexpr -> Prop :=
| st_eps e : whs e LEps -> st e LEps
| st_lit e s : whs e (LLit s) -> st e (LLit s)
| st_var e i : whs e (LVar i) -> st e (LVar i)
| st_cat e l l' : whs e (LCat l) -> st_list l l' -> st e (LCat l')
| st_alt e l l' : whs e (LAlt l) -> st_list l l' -> st e (LAlt l')
| st_fix e x y : whs e (LFix x) -> st x y -> st e (LFix y)
| st_call e f g l l' : whs e (LCall f l) -> st f g -> st_list l l' -> st e (LCall g l')
| st_lam e n b c : whs e (LLam n b) -> st b c -> st e (LLam n c)
| st_let e x y b c : whs e (LLet x b) -> st x y -> st b c -> st e (LLet y c)
with st_list : list lexpr -> list lexpr -> Prop :=
| stl_nil : st_list [] []
| stl_cons x y l l' : st x y -> st_list l l' -> st_list (x :: l) (y :: l').
Scheme st_mi := Minimality for st Sort Prop
with st_list_mi := Minimality for st_list Sort Prop.
Combined Scheme st_mut from st_mi, st_list_mi.

Lemma st_list_Forall2 l l' : st_list l l' <-> Forall2 st l l'.
Proof. split; induction 1; constructor; auto. Qed.
Lemma st_refl e : st e e.
Proof.
  assert (L : forall l, Forall (fun x => st x x) l -> st_list l l) by (induction 1; constructor; auto).
  induction e using lexpr_ind'; econstructor; try apply whs_refl; eauto.
Qed.
Lemma st_whs e e' x : whs e e' -> st e' x -> st e x.
Proof. intros H1 H2. inversion H2; subst; econstructor; try (eapply whs_trans; eassumption); eassumption. Qed.

Lemma st_lren_both :
  (forall e e', st e e' -> forall r, st (lren r e) (lren r e')) /\
  (forall l l', st_list l l' -> forall r, st_list (map (lren r) l) (map (lren r) l')).
Proof.
  assert (W : forall x y r, whs x y -> whs (lren r x) (lren r y)).
  { intros x y r H. rewrite !lren_lsub_var. now apply whs_lsub. }
  apply st_mut; intros; cbn; try (econstructor; [apply (W _ _ r) in H; exact H | ..]; eauto; fail).
  - constructor.
  - constructor; auto.
Qed.
Lemma st_ups n s s' : (forall i, st (s i) (s' i)) -> forall i, st (ups n s i) (ups n s' i).
Proof. intros H i. unfold ups. ltb_cases; [apply st_refl | now apply st_lren_both]. Qed.
Lemma st_lsub_both :
  (forall e e', st e e' -> forall s s', (forall i, st (s i) (s' i)) -> st (lsub s e) (lsub s' e')) /\
  (forall l l', st_list l l' -> forall s s', (forall i, st (s i) (s' i)) -> st_list (map (lsub s) l) (map (lsub s') l')).
Proof.
  apply st_mut; intros; cbn.
  - apply (fun h => whs_lsub _ _ h s) in H. now constructor.
  - apply (fun h => whs_lsub _ _ h s0) in H. now constructor.
  - apply (fun h => whs_lsub _ _ h s) in H. cbn in H. now apply (st_whs _ _ _ H).
  - apply (fun h => whs_lsub _ _ h s) in H. cbn in H. econstructor; eauto.
  - apply (fun h => whs_lsub _ _ h s) in H. cbn in H. eapply st_alt; eauto.
  - apply (fun h => whs_lsub _ _ h s) in H. cbn in H. econstructor; eauto.
  - apply (fun h => whs_lsub _ _ h s) in H. cbn in H. econstructor; eauto.
  - apply (fun h => whs_lsub _ _ h s) in H. cbn in H. econstructor; eauto. apply H1. now apply st_ups.
  - apply (fun h => whs_lsub _ _ h s) in H. cbn in H. eapply st_let; eauto. apply H3. now apply st_ups.
  - constructor.
  - constructor; auto.
Qed.
Lemma Forall2_len {A B} (R : A -> B -> Prop) l m : Forall2 R l m -> length l = length m.
Proof. induction 1; cbn; congruence. Qed.
Lemma st_inst l l' : st_list l l' -> forall i, st (inst l i) (inst l' i).
Proof.
  intros H. apply st_list_Forall2 in H. intros i. unfold inst.
  assert (L : length l = length l') by (eapply Forall2_len; eassumption).
  assert (R : Forall2 st (rev l) (rev l')).
  { clear i L. induction H; cbn; [constructor |]. apply Forall2_app; auto. }
  assert (N : forall m m', Forall2 st m m' -> forall i,
    match nth_error m i, nth_error m' i with Some x, Some y => st x y | None, None => True | _, _ => False end).
  { induction 1; intros [| j]; cbn; auto. apply IHForall2. }
  specialize (N _ _ R i). destruct (nth_error (rev l) i), (nth_error (rev l') i); try contradiction; auto.
  rewrite L. apply st_refl.
Qed.

Lemma st_list_app l x r m : st_list (l ++ x :: r) m -> exists l' x' r', m = l' ++ x' :: r' /\ st_list l l' /\ st x x' /\ st_list r r'.
Proof.
  intros H. apply st_list_Forall2, Forall2_app_inv_l in H as (l' & r1 & H1 & H2 & ->).
  inversion H2; subst. exists l', y, l'0. rewrite !st_list_Forall2. auto.
Qed.
(** A standard reduction followed by a step is a standard reduction. *)
Lemma st_list_mid l x r m y :
  st_list m (l ++ x :: r) -> (forall e, st e x -> st e y) -> st_list m (l ++ y :: r).
Proof.
  rewrite !st_list_Forall2. intros H Hx. apply Forall2_app_inv_r in H as (l1 & r1 & H1 & H2 & ->).
  inversion H2; subst. apply Forall2_app; auto.
Qed.
Lemma st_step x y : step x y -> forall e, st e x -> st e y.
Proof.
  induction 1; intros e He; inversion He; subst.
  - match goal with h : st _ (LLam _ _) |- _ => inversion h; subst end.
    match goal with hl : st_list ?l args |- _ => assert (L : length l = length args)
      by (apply st_list_Forall2 in hl; eapply Forall2_len; exact hl) end.
    eapply st_whs.
    + eapply whs_trans; [eassumption |]. eapply whs_trans; [apply whs_fun; eassumption |].
      econstructor; [now apply wh_beta | apply whs_refl].
    + apply st_lsub_both; [assumption |]. now apply st_inst.
  - eapply st_whs.
    + eapply whs_trans; [eassumption |]. econstructor; [apply wh_let | apply whs_refl].
    + apply st_lsub_both; [assumption |]. apply st_inst. constructor; [assumption | constructor].
  - eapply st_cat; [eassumption |]. eapply st_list_mid; eauto.
  - eapply st_alt; [eassumption |]. eapply st_list_mid; eauto.
  - eapply st_fix; eauto.
  - eapply st_call; eauto.
  - eapply st_call; eauto. eapply st_list_mid; eauto.
  - eapply st_lam; eauto.
  - eapply st_let; eauto.
  - eapply st_let; eauto.
Qed.
Lemma steps_st x y : steps x y -> st x y.
Proof.
  assert (H : forall x y, steps x y -> forall e, st e x -> st e y).
  { induction 1; auto. intros e He. apply IHsteps. eapply st_step; eassumption. }
  intros Hs. eapply H; [eassumption | apply st_refl].
Qed.

(** ** Evaluation finds every grammar *)
Lemma wh_evals x y : wh x y -> forall v, evals y v -> evals x v.
Proof.
  induction 1; intros v Hv.
  - eapply ev_call; [constructor | assumption | assumption].
  - now constructor.
  - inversion Hv; subst. eapply ev_call; eauto.
Qed.
Lemma whs_evals x y v : whs x y -> evals y v -> evals x v.
Proof. induction 1; auto. intros. eapply wh_evals; eauto. Qed.

(** A grammar: no call, no let, functions only directly under fixed points. *)
Lemma each_Forall2 {A B} (f : A -> option B) l gs : each f l = Some gs <-> Forall2 (fun x g => f x = Some g) l gs.
Proof.
  revert gs. induction l as [| x l IH]; intros gs; cbn [each]; split; intros H.
  - injection H as <-. constructor.
  - now inversion H.
  - destruct (f x) eqn:E; [| discriminate H]. destruct (each f l) eqn:F; [| discriminate H].
    injection H as <-. constructor; [assumption |]. now apply IH.
  - inversion H; subst. rewrite H2. apply IH in H4. now rewrite H4.
Qed.
Lemma st_evals_grammar v : forall g, lgram v = Some g -> forall e, st e v -> evals e v.
Proof.
  enough (H : (forall g, lgram v = Some g -> forall e, st e v -> evals e v) /\
    match v with LLam _ b => forall g, lgram b = Some g -> forall e, st e b -> evals e b | _ => True end) by apply H.
  assert (HL : forall l, Forall (fun v => (forall g, lgram v = Some g -> forall e, st e v -> evals e v) /\
    match v with LLam _ b => forall g, lgram b = Some g -> forall e, st e b -> evals e b | _ => True end) l ->
    forall gs, Forall2 (fun x g => lgram x = Some g) l gs -> forall m, st_list m l -> evals_list m l).
  { induction 1; intros gs Hg m Hm; inversion Hm; subst; [constructor |]. inversion Hg; subst.
    constructor; [eapply H; eauto | eauto]. }
  induction v as [| s | l H | l H | i IH | i | o l IH H | k i IH | x y IH IH2] using lexpr_ind'; split; try exact Logic.I;
    intros g Hg e He; try discriminate Hg.
  - inversion He; subst. eapply whs_evals; [eassumption | constructor].
  - inversion He; subst. eapply whs_evals; [eassumption | constructor].
  - inversion He; subst. eapply whs_evals; [eassumption |]. cbn in Hg.
    destruct (each lgram l) as [gs |] eqn:F; [| discriminate Hg]. apply each_Forall2 in F. constructor. eauto.
  - inversion He; subst. eapply whs_evals; [eassumption |]. cbn in Hg.
    destruct (each lgram l) as [gs |] eqn:F; [| discriminate Hg]. apply each_Forall2 in F. apply ev_alt. eauto.
  - inversion He; subst. eapply whs_evals; [eassumption |]. cbn in Hg.
    destruct i; try discriminate Hg. destruct (lgram i) eqn:F; [| discriminate Hg].
    match goal with h : st _ (LLam _ _) |- _ => inversion h; subst end.
    apply ev_fix with (b := b).
    + eapply whs_evals; [eassumption | constructor].
    + eapply IH; eauto.
  - inversion He; subst. eapply whs_evals; [eassumption | constructor].
  - eapply IH; eauto.
Qed.
Theorem evals_grammar e v g : lgram v = Some g -> (steps e v <-> evals e v).
Proof.
  intros Hg. split; intros H.
  - eapply st_evals_grammar; [exact Hg |]. now apply steps_st.
  - now apply evals_steps.
Qed.
