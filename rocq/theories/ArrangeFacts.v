(** * ArrangeFacts: rearranging keeps types and languages. *)
From Verif Require Import SpecArrange SpecTyping TypeFacts LangFacts.
From Coq Require Import List.

(** ** Types *)
Definition tyd (G : tenv) (g : gram) (t : stype) : Prop := exists t', typed G g t' /\ st_eq t t'.
Definition tyseq (G : tenv) (t : stype) (gs : list gram) (t' : stype) : Prop := exists u, typed_seq G t gs u /\ st_eq t' u.
Lemma tyd_eq G g t u : st_eq t u -> tyd G g t -> tyd G g u.
Proof. intros H (t' & H1 & H2). exists t'. split; [exact H1 |]. eapply st_eq_trans; [apply st_eq_sym; exact H | exact H2]. Qed.
Lemma separable_eq a a' b b' : st_eq a a' -> st_eq b b' -> separable a b -> separable a' b'.
Proof. intros [(A1 & A2 & A3) (A4 & A5 & A6)] [(B1 & B2 & B3) (B4 & B5 & B6)] [S1 S2]. split; [auto |]. intros c H1 H2. apply (S2 c); auto. Qed.
Lemma apart_eq a a' b b' : st_eq a a' -> st_eq b b' -> apart a b -> apart a' b'.
Proof. intros [(A1 & A2 & A3) (A4 & A5 & A6)] [(B1 & B2 & B3) (B4 & B5 & B6)] [S1 S2]. split; [intros [X Y]; apply S1; auto |]. intros c H1 H2. apply (S2 c); auto. Qed.
Lemma apart_sym a b : apart a b -> apart b a.
Proof. intros [S1 S2]. split; [tauto |]. intros c H1 H2. apply (S2 c); auto. Qed.

Lemma seq_front G gs : forall t t' u, typed_seq G t gs t' -> st_eq t u -> exists u', typed_seq G u gs u' /\ st_eq t' u'.
Proof.
  induction gs as [| g gs IH]; intros t t' u H E; inversion H; subst.
  - exists u. split; [constructor | exact E].
  - destruct (IH (st_cat t t1) t' (st_cat u t1)) as (u' & U1 & U2); [assumption | apply st_cat_eq; [exact E | apply st_eq_refl] |]. exists u'. split; [| exact U2]. econstructor; [eassumption | eapply separable_eq; [exact E | apply st_eq_refl | assumption] | exact U1].
Qed.
Lemma tyseq_eq G gs t t' u u' : st_eq t u -> st_eq t' u' -> tyseq G t gs t' -> tyseq G u gs u'.
Proof.
  intros E E' (v & H1 & H2). destruct (seq_front G gs _ _ u H1 E) as (v' & V1 & V2). exists v'. split; [exact V1 |]. eapply st_eq_trans; [apply st_eq_sym; exact E' |]. eapply st_eq_trans; eauto.
Qed.
Lemma tyseq_nil G t t' : tyseq G t [] t' <-> st_eq t' t.
Proof. split; [intros (u & H & E); inversion H; subst; exact E | intros E; exists t; split; [constructor | exact E]]. Qed.
Lemma tyseq_cons G t g gs t' : tyseq G t (g :: gs) t' <-> exists t1, tyd G g t1 /\ separable t t1 /\ tyseq G (st_cat t t1) gs t'.
Proof.
  split.
  - intros (u & H & E). inversion H; subst. exists t1. split; [exists t1; split; [assumption | apply st_eq_refl] |]. split; [assumption |]. now exists u.
  - intros (t1 & (t1' & H1 & H2) & S & H). apply (tyseq_eq _ _ _ _ (st_cat t t1') t') in H as (v & V1 & V2); [| apply st_cat_eq; [apply st_eq_refl | exact H2] | apply st_eq_refl].
    exists v. split; [| exact V2]. econstructor; [exact H1 | eapply separable_eq; [apply st_eq_refl | exact H2 | exact S] | exact V1].
Qed.
Lemma tyseq_app G gs hs : forall t t', tyseq G t (gs ++ hs) t' <-> exists u, tyseq G t gs u /\ tyseq G u hs t'.
Proof.
  induction gs as [| g gs IH]; intros t t'; cbn [app].
  - split; [intros H; exists t; split; [apply tyseq_nil, st_eq_refl | exact H] |]. intros (u & H1 & H2). apply tyseq_nil in H1. eapply tyseq_eq; [exact H1 | apply st_eq_refl | exact H2].
  - rewrite tyseq_cons. split.
    + intros (t1 & H1 & H2 & H3). apply IH in H3 as (u & U1 & U2). exists u. split; [apply tyseq_cons; eauto | exact U2].
    + intros (u & H & U2). apply tyseq_cons in H as (t1 & H1 & H2 & H3). exists t1. split; [exact H1 |]. split; [exact H2 |]. apply IH. eauto.
Qed.
Lemma tyseq_front_full G gs : forall t t', ~ s_null t -> tyseq G t gs t' -> ~ s_null t'.
Proof.
  induction gs as [| g gs IH]; intros t t' Hn H.
  - apply tyseq_nil in H as [(E & _) _]. auto.
  - apply tyseq_cons in H as (t1 & _ & _ & H). eapply IH; [| exact H]. cbn. tauto.
Qed.
Lemma tyd_cat G g gs t : tyd G (GCat (g :: gs)) t <-> exists t1, tyd G g t1 /\ ~ s_null t1 /\ tyseq (unguard G) t1 gs t.
Proof.
  split.
  - intros (t' & H & E). inversion H; subst. exists t1. split; [exists t1; split; [assumption | apply st_eq_refl] |]. split; [assumption | now exists t'].
  - intros (t1 & (t1' & H1 & H2) & Hn & H). apply (tyseq_eq _ _ _ _ t1' t) in H as (v & V1 & V2); [| exact H2 | apply st_eq_refl]. exists v. split; [| exact V2].
    econstructor; [exact H1 | | exact V1]. destruct H2 as [_ (K & _)]. auto.
Qed.
Lemma tyd_fix G g t : tyd G (GFix g) t <-> exists u, st_eq t u /\ tyd ((false, u) :: G) g u.
Proof.
  split.
  - intros (t' & H & E). inversion H; subst. exists t'. split; [exact E |]. exists t'0. split; [assumption | now apply st_eq_sym].
  - intros (u & E & t' & H1 & H2). exists u. split; [econstructor; [exact H1 | now apply st_eq_sym] | exact E].
Qed.

(** Alternations, without order. *)
Definition alts (ts : list stype) : stype :=
  ST (exists t, In t ts /\ s_null t) (fun c => exists t, In t ts /\ s_first t c) (fun c => exists t, In t ts /\ s_flast t c).
Fixpoint pairwise (ts : list stype) : Prop := match ts with [] => True | t :: ts' => Forall (apart t) ts' /\ pairwise ts' end.
Lemma alts_cons t ts : st_eq (alts (t :: ts)) (st_alt t (alts ts)).
Proof.
  apply st_eq_intro; cbn; try intros c; (split; [intros (x & [<- | Hi] & H); eauto | intros [H | (x & Hi & H)]; eauto]).
Qed.
Lemma alts_app ts us : st_eq (alts (ts ++ us)) (alts (alts ts :: us)).
Proof.
  apply st_eq_intro; cbn; try intros c; (split;
    [ intros (x & Hi & H); apply in_app_or in Hi as [Hi | Hi]; [exists (alts ts); cbn; eauto | eauto]
    | intros (x & [<- | Hi] & H); [cbn in H; destruct H as (y & Hy & H); exists y; split; [apply in_or_app; auto | exact H] | exists x; split; [apply in_or_app; auto | exact H]] ]).
Qed.
Lemma alts_in ts us : (forall t, In t ts <-> In t us) -> st_eq (alts ts) (alts us).
Proof. intros H. apply st_eq_intro; cbn; try intros c; (split; intros (x & Hi & K); apply H in Hi; eauto). Qed.
Lemma apart_alts ts t : apart (alts ts) t <-> Forall (fun x => apart x t) ts.
Proof.
  split.
  - intros [S1 S2]. apply Forall_forall. intros x Hx. split; [intros [X Y]; apply S1; cbn; eauto |]. intros c H1 H2. apply (S2 c); cbn; eauto.
  - intros H. rewrite Forall_forall in H. split; [intros [(x & Hi & X) Y]; now apply (proj1 (H x Hi)) |]. intros c (x & Hi & X) Y. now apply (proj2 (H x Hi) c).
Qed.
Lemma apart_alt a b t : apart (st_alt a b) t <-> apart a t /\ apart b t.
Proof.
  split.
  - intros [S1 S2]. cbn in *. split; (split; [tauto | intros c H1 H2; apply (S2 c); auto]).
  - intros [[A1 A2] [B1 B2]]. split; cbn; [tauto |]. intros c [H | H] K; eauto.
Qed.
Lemma pairwise_app ts us : pairwise (ts ++ us) <-> pairwise ts /\ pairwise us /\ Forall (apart (alts ts)) us.
Proof.
  induction ts as [| t ts IH]; cbn [pairwise app].
  - split; [intros H; split; [exact Logic.I |]; split; [exact H |]; apply Forall_forall; intros x _; apply apart_alts; constructor | tauto].
  - rewrite Forall_app, IH. split.
    + intros ((H1 & H2) & H3 & H4 & H5). split; [auto |]. split; [exact H4 |]. rewrite Forall_forall in *. intros x Hx. apply apart_alts. constructor; [auto |]. now apply apart_alts, H5.
    + intros ((H1 & H2) & H3 & H4). rewrite Forall_forall in H4. assert (K : forall x, In x us -> apart t x /\ apart (alts ts) x) by (intros x Hx; specialize (H4 x Hx); apply apart_alts in H4; inversion H4; subst; split; [assumption | now apply apart_alts]).
      split; [split; [exact H1 |] |]; [apply Forall_forall; intros x Hx; now apply K |]. split; [exact H2 |]. split; [exact H3 |]. apply Forall_forall. intros x Hx. now apply K.
Qed.
Lemma pairwise_perm ts us : Permutation ts us -> pairwise ts -> pairwise us.
Proof.
  induction 1 as [| t ts us HP IH | t u ts | ts us vs _ IH1 _ IH2]; cbn; auto.
  - intros [H1 H2]. split; [eapply Permutation_Forall; eauto | auto].
  - intros (H1 & H2 & H3). inversion H1; subst. split; [constructor; [now apply apart_sym | assumption] | auto].
Qed.
Definition tybr (G : tenv) (t : stype) (gs : list gram) (t' : stype) : Prop := exists u, typed_branches G t gs u /\ st_eq t' u.
Lemma branches_front G gs : forall t t' u, typed_branches G t gs t' -> st_eq t u -> exists u', typed_branches G u gs u' /\ st_eq t' u'.
Proof.
  induction gs as [| g gs IH]; intros t t' u H E; inversion H; subst.
  - exists u. split; [constructor | exact E].
  - destruct (IH (st_alt t t1) t' (st_alt u t1)) as (u' & U1 & U2); [assumption | apply st_alt_eq; [exact E | apply st_eq_refl] |]. exists u'. split; [| exact U2]. econstructor; [eassumption | eapply apart_eq; [exact E | apply st_eq_refl | assumption] | exact U1].
Qed.
Lemma tybr_eq G gs t t' u u' : st_eq t u -> st_eq t' u' -> tybr G t gs t' -> tybr G u gs u'.
Proof.
  intros E E' (v & H1 & H2). destruct (branches_front G gs _ _ u H1 E) as (v' & V1 & V2). exists v'. split; [exact V1 |]. eapply st_eq_trans; [apply st_eq_sym; exact E' |]. eapply st_eq_trans; eauto.
Qed.
Lemma tybr_iff G gs : forall t t', tybr G t gs t' <-> exists ts, Forall2 (tyd G) gs ts /\ Forall (apart t) ts /\ pairwise ts /\ st_eq t' (alts (t :: ts)).
Proof.
  induction gs as [| g gs IH]; intros t t'.
  - assert (E : st_eq (alts [t]) t) by (apply st_eq_intro; cbn; try intros c; (split; [intros (x & [<- | []] & H); exact H | eauto])). split.
    + intros (u & H & E'). inversion H; subst. exists []. split; [constructor |]. split; [constructor |]. split; [exact Logic.I |]. eapply st_eq_trans; [exact E' | now apply st_eq_sym].
    + intros (ts & H & _ & _ & E'). inversion H; subst. exists t. split; [constructor |]. eapply st_eq_trans; eauto.
  - assert (EA : forall t1 ts, st_eq (alts (st_alt t t1 :: ts)) (alts (t :: t1 :: ts))).
    { intros t1 ts. eapply st_eq_trans; [apply alts_cons |]. apply st_eq_sym. eapply st_eq_trans; [apply alts_cons |]. eapply st_eq_trans; [apply st_alt_eq; [apply st_eq_refl | apply alts_cons] |].
      apply st_eq_intro; cbn; try intros c; tauto. }
    split.
    + intros (u & H & E'). inversion H; subst. destruct (proj1 (IH (st_alt t t1) t')) as (ts & T1 & T2 & T3 & T4); [now exists u |]. exists (t1 :: ts).
      split; [constructor; [exists t1; split; [assumption | apply st_eq_refl] | exact T1] |]. rewrite Forall_forall in T2.
      split; [constructor; [assumption |]; apply Forall_forall; intros x Hx; now apply (apart_alt t t1 x), T2 |]. split; [split; [| exact T3]; apply Forall_forall; intros x Hx; now apply (apart_alt t t1 x), T2 |].
      eapply st_eq_trans; [exact T4 | apply EA].
    + intros (ts & H & Ha & Hp & E'). inversion H as [| ? t1 ? ts' (t1' & H1 & H2) H3]; subst. inversion Ha as [| ? ? A1 A2]; subst. destruct Hp as [P1 P2]. rewrite Forall_forall in A2, P1.
      assert (K : tybr G (st_alt t t1) gs t'). { apply IH. exists ts'. split; [exact H3 |]. split; [apply Forall_forall; intros x Hx; apply apart_alt; auto |]. split; [exact P2 |]. eapply st_eq_trans; [exact E' | apply st_eq_sym, EA]. }
      apply (tybr_eq _ _ _ _ (st_alt t t1') t') in K as (v & V1 & V2); [| apply st_alt_eq; [apply st_eq_refl | exact H2] | apply st_eq_refl]. exists v. split; [| exact V2].
      econstructor; [exact H1 | eapply apart_eq; [apply st_eq_refl | exact H2 | exact A1] | exact V1].
Qed.
Lemma tyd_alt G gs t : tyd G (GAlt gs) t <-> gs <> [] /\ exists ts, Forall2 (tyd G) gs ts /\ pairwise ts /\ st_eq t (alts ts).
Proof.
  split.
  - intros (t' & H & E). inversion H as [| | | | ? g gs' t1 ? H1 H2 |]; subst. split; [discriminate |]. destruct (proj1 (tybr_iff G gs' t1 t)) as (ts & T1 & T2 & T3 & T4); [now exists t' |]. exists (t1 :: ts).
    split; [constructor; [exists t1; split; [exact H1 | apply st_eq_refl] | exact T1] |]. split; [now split | exact T4].
  - intros (Hn & ts & H & Hp & E). destruct H as [| g t1 gs ts (t1' & H1 & H2) H3]; [now elim Hn |]. destruct Hp as [P1 P2].
    assert (K : tybr G t1 gs t) by (apply tybr_iff; exists ts; auto). apply (tybr_eq _ _ _ _ t1' t) in K as (v & V1 & V2); [| exact H2 | apply st_eq_refl]. exists v. split; [econstructor; eauto | exact V2].
Qed.

Lemma unguard_twice G : unguard (unguard G) = unguard G.
Proof. unfold unguard. rewrite map_map. reflexivity. Qed.
Lemma st_cat_assoc a b c : st_eq (st_cat (st_cat a b) c) (st_cat a (st_cat b c)).
Proof. apply st_eq_intro; cbn; try intros x; tauto. Qed.
(** A sequence can follow a longer front. *)
Lemma tyseq_longer G a gs : forall t t', ~ s_null a -> ~ s_null t -> tyseq G t gs t' -> tyseq G (st_cat a t) gs (st_cat a t').
Proof.
  induction gs as [| g gs IH]; intros t t' Ha Hn H.
  - apply tyseq_nil in H. apply tyseq_nil, st_cat_eq; [apply st_eq_refl | exact H].
  - apply tyseq_cons in H as (t1 & H1 & [S1 S2] & H). apply tyseq_cons. exists t1. split; [exact H1 |]. split.
    + split; [cbn; tauto |]. cbn. intros c [K | [K _]]; [apply (S2 c K) | tauto].
    + eapply tyseq_eq; [apply st_eq_sym, st_cat_assoc | apply st_eq_refl |]. apply IH; [exact Ha | cbn; tauto | exact H].
Qed.
Lemma tyseq_ungroup G t m n t' : unguard G = G -> ~ s_null t -> m <> [] -> tyseq G t (GCat m :: n) t' -> tyseq G t (m ++ n) t'.
Proof.
  intros HG Hn Hm H. apply tyseq_cons in H as (t2 & H2 & [S1 S2] & H). destruct m as [| h hs]; [now elim Hm |]. apply tyd_cat in H2 as (th & Hh & Nh & Hs). rewrite HG in Hs.
  apply tyseq_app. exists (st_cat t t2). split; [| exact H]. apply tyseq_cons. exists th. split; [exact Hh |]. split; [| now apply tyseq_longer]. split; [exact S1 |]. intros c K1 K2. apply (S2 c K1).
  assert (F : forall hs u u', s_first u c -> tyseq G u hs u' -> s_first u' c).
  { induction hs0 as [| x hs0 IH]; intros u u' Hu K; [apply tyseq_nil in K as [_ (_ & K & _)]; auto |]. apply tyseq_cons in K as (x1 & _ & _ & K). eapply IH; [| exact K]. cbn. auto. }
  eapply F; eauto.
Qed.
Definition sim (g g' : gram) : Prop := forall G t, tyd G g t -> tyd G g' t.
Lemma sim_in_alt l g g' n : sim g g' -> sim (GAlt (l ++ g :: n)) (GAlt (l ++ g' :: n)).
Proof.
  intros H G t K. apply tyd_alt in K as (_ & ts & T1 & T2 & T3). apply tyd_alt. split; [destruct l; discriminate |]. exists ts. split; [| auto].
  apply Forall2_app_inv_l in T1 as (tl & tr & L1 & L2 & ->). inversion L2; subst. apply Forall2_app; [exact L1 |]. constructor; [now apply H | assumption].
Qed.
Lemma sim_in_cat l g g' n : sim g g' -> sim (GCat (l ++ g :: n)) (GCat (l ++ g' :: n)).
Proof.
  intros H G t K. destruct l as [| h l]; cbn [app] in *.
  - apply tyd_cat in K as (t1 & H1 & H2). apply tyd_cat. exists t1. split; [now apply H | exact H2].
  - apply tyd_cat in K as (t1 & H1 & H2 & H3). apply tyd_cat. exists t1. split; [exact H1 |]. split; [exact H2 |]. apply tyseq_app in H3 as (u & U1 & U2). apply tyseq_app. exists u. split; [exact U1 |].
    apply tyseq_cons in U2 as (v & V1 & V2). apply tyseq_cons. exists v. split; [now apply H | exact V2].
Qed.
Lemma sim_in_fix g g' : sim g g' -> sim (GFix g) (GFix g').
Proof. intros H G t K. apply tyd_fix in K as (u & U1 & U2). apply tyd_fix. exists u. split; [exact U1 | now apply H]. Qed.
Lemma sim_order gs gs' : Permutation gs gs' -> sim (GAlt gs) (GAlt gs').
Proof.
  intros HP G t K. apply tyd_alt in K as (Hn & ts & T1 & T2 & T3). apply tyd_alt. split; [intros ->; apply Permutation_sym, Permutation_nil in HP; auto |].
  destruct (Permutation_Forall2 HP T1) as (us & U1 & U2). exists us. split; [exact U2 |]. split; [eapply pairwise_perm; eauto |]. eapply st_eq_trans; [exact T3 |]. apply alts_in. intros x. split; apply Permutation_in; [exact U1 | now apply Permutation_sym].
Qed.
Lemma head_group m n : m <> [] -> sim (GAlt (GAlt m :: n)) (GAlt (m ++ n)) /\ sim (GAlt (m ++ n)) (GAlt (GAlt m :: n)).
Proof.
  intros Hm. split; intros G t K.
  - apply tyd_alt in K as (_ & ts & T1 & T2 & T3). inversion T1 as [| ? tm ? tn Hg Hr]; subst. apply tyd_alt in Hg as (_ & tms & M1 & M2 & M3). apply tyd_alt. split; [destruct m; [now elim Hm | discriminate] |].
    exists (tms ++ tn). split; [now apply Forall2_app |]. destruct T2 as [P1 P2]. split; [apply pairwise_app; split; [exact M2 |]; split; [exact P2 |]; rewrite Forall_forall in *; intros x Hx; eapply apart_eq; [exact M3 | apply st_eq_refl | auto] |].
    eapply st_eq_trans; [exact T3 |]. eapply st_eq_trans; [apply alts_cons |]. eapply st_eq_trans; [apply st_alt_eq; [exact M3 | apply st_eq_refl] |]. eapply st_eq_trans; [apply st_eq_sym, alts_cons |]. apply st_eq_sym, alts_app.
  - apply tyd_alt in K as (_ & ts & T1 & T2 & T3). apply Forall2_app_inv_l in T1 as (tms & tn & M1 & N1 & ->). apply pairwise_app in T2 as (P1 & P2 & P3). apply tyd_alt. split; [discriminate |].
    exists (alts tms :: tn). split; [constructor; [| exact N1]; apply tyd_alt; split; [exact Hm |]; exists tms; split; [exact M1 |]; split; [exact P1 | apply st_eq_refl] |]. split; [now split |]. eapply st_eq_trans; [exact T3 | apply alts_app].
Qed.
Lemma group_alt l m n : m <> [] -> sim (GAlt (l ++ GAlt m :: n)) (GAlt (l ++ m ++ n)) /\ sim (GAlt (l ++ m ++ n)) (GAlt (l ++ GAlt m :: n)).
Proof.
  intros Hm. destruct (head_group m (l ++ n) Hm) as [H1 H2].
  assert (P1 : Permutation (l ++ GAlt m :: n) (GAlt m :: l ++ n)) by (apply Permutation_sym, Permutation_middle).
  assert (P2 : Permutation (l ++ m ++ n) (m ++ l ++ n)) by (rewrite !app_assoc; apply Permutation_app_tail, Permutation_app_comm).
  split; intros G t K.
  - apply (sim_order _ _ (Permutation_sym P2)), H1, (sim_order _ _ P1), K.
  - apply (sim_order _ _ (Permutation_sym P1)), H2, (sim_order _ _ P2), K.
Qed.
Lemma group_front m n : m <> [] -> sim (GCat (GCat m :: n)) (GCat (m ++ n)) /\ sim (GCat (m ++ n)) (GCat (GCat m :: n)).
Proof.
  intros Hm. destruct m as [| g gs]; [now elim Hm |]. cbn [app]. split; intros G t K.
  - apply tyd_cat in K as (u & U1 & U2 & U3). apply tyd_cat in U1 as (t1 & T1 & T2 & T3). apply tyd_cat. exists t1. split; [exact T1 |]. split; [exact T2 |]. apply tyseq_app. eauto.
  - apply tyd_cat in K as (t1 & T1 & T2 & T3). apply tyseq_app in T3 as (u & U1 & U2). apply tyd_cat. exists u. split; [apply tyd_cat; eauto |]. split; [eapply tyseq_front_full; eauto | exact U2].
Qed.
Lemma rearranged_sim g g' : rearranged g g' -> sim g g' /\ sim g' g.
Proof.
  induction 1 as [gs gs' HP | l m n Hm | m n Hm | g | g g' _ [H1 H2] | g g' g'' _ [H1 H2] _ [H3 H4] | l g g' n _ [H1 H2] | l g g' n _ [H1 H2] | g g' _ [H1 H2]].
  - split; apply sim_order; [exact HP | now apply Permutation_sym].
  - now apply group_alt.
  - now apply group_front.
  - split; intros G t K; exact K.
  - auto.
  - split; intros G t K; auto.
  - split; apply sim_in_alt; assumption.
  - split; apply sim_in_cat; assumption.
  - split; apply sim_in_fix; assumption.
Qed.
(** What follows alternatives, written after each. *)
Lemma alts_cat ts t1 : ts <> [] -> st_eq (st_cat (alts ts) t1) (alts (map (fun t => st_cat t t1) ts)).
Proof.
  intros Hn. destruct ts as [| t0 ts]; [now elim Hn |]. clear Hn. set (l := t0 :: ts). assert (H0 : In t0 l) by now left. clearbody l.
  assert (K : forall x, In x l -> In (st_cat x t1) (map (fun t => st_cat t t1) l)) by (intros x Hx; now apply (in_map (fun t => st_cat t t1))).
  apply st_eq_intro; cbn; [| intros c | intros c]; split.
  - intros [(x & Hx & H) H1]. exists (st_cat x t1). cbn. auto.
  - intros (y & Hy & H). apply in_map_iff in Hy as (x & <- & Hx). cbn in H. destruct H as [Ha Hb]. split; [exists x; auto | exact Hb].
  - intros [(x & Hx & H) | [(x & Hx & H) H1]]; exists (st_cat x t1); cbn; auto.
  - intros (y & Hy & H). apply in_map_iff in Hy as (x & <- & Hx). cbn in H. destruct H as [H | [H1 H2]]; [left; exists x; auto | right; split; [exists x; auto | exact H2]].
  - intros [H | [H1 [H | (x & Hx & H)]]]; [exists (st_cat t0 t1) | exists (st_cat t0 t1) | exists (st_cat x t1)]; cbn; auto.
  - intros (y & Hy & H). apply in_map_iff in Hy as (x & <- & Hx). cbn in H. destruct H as [H | [H1 [H | H]]]; [left; exact H | right; split; [exact H1 | left; exact H] | right; split; [exact H1 | right; exists x; auto]].
Qed.
Lemma pairwise_cat t1 ts : Forall (fun t => ~ s_null t) ts -> pairwise ts -> pairwise (map (fun t => st_cat t t1) ts).
Proof.
  induction 1 as [| t ts Hn Hr IH]; cbn [map pairwise]; [auto |]. intros [H1 H2]. split; [| auto]. rewrite Forall_forall in *. intros y Hy. apply in_map_iff in Hy as (x & <- & Hx).
  destruct (H1 x Hx) as [_ A]. specialize (Hr x Hx). split; cbn; [tauto |]. intros c [K | K] [K' | K']; [eauto | tauto ..].
Qed.
Lemma tyseq_spread G n : forall ts t, ts <> [] -> Forall (fun t => ~ s_null t) ts -> pairwise ts -> tyseq G (alts ts) n t ->
  exists us, Forall2 (fun x u => tyseq G x n u) ts us /\ pairwise us /\ st_eq t (alts us).
Proof.
  induction n as [| g n IH]; intros ts t Hne Hn Hp H.
  - apply tyseq_nil in H. exists ts. split; [clear; induction ts as [| t ts IH]; constructor; [apply tyseq_nil, st_eq_refl | exact IH] |]. auto.
  - apply tyseq_cons in H as (t1 & H1 & [_ S2] & H). destruct (IH (map (fun x => st_cat x t1) ts) t) as (us & U1 & U2 & U3).
    + destruct ts; [now elim Hne | discriminate].
    + apply Forall_forall. intros y Hy. apply in_map_iff in Hy as (x & <- & Hx). rewrite Forall_forall in Hn. specialize (Hn x Hx). cbn. tauto.
    + now apply pairwise_cat.
    + eapply tyseq_eq; [now apply alts_cat | apply st_eq_refl | exact H].
    + exists us. split; [| auto]. assert (S3 : Forall (fun x => separable x t1) ts).
      { rewrite Forall_forall in *. intros x Hx. split; [auto |]. intros c K1 K2. apply (S2 c); [cbn; eauto | exact K2]. }
      clear - H1 U1 S3. revert us U1. induction S3 as [| x ts Hx _ IH]; intros us U1; cbn [map] in U1; inversion U1; subst; constructor; [| auto]. apply tyseq_cons. eauto.
Qed.
Lemma spread m n : m <> [] -> sim (GCat (GAlt m :: n)) (GAlt (map (fun g => GCat (g :: n)) m)).
Proof.
  intros Hm G t K. apply tyd_cat in K as (u & U1 & U2 & U3). apply tyd_alt in U1 as (_ & ts & T1 & T2 & T3).
  assert (Hts : ts <> []) by (intros ->; inversion T1; subst; now elim Hm).
  assert (Hn : Forall (fun x => ~ s_null x) ts) by (apply Forall_forall; intros x Hx Nx; apply U2; destruct T3 as [_ (K & _)]; apply K; cbn; eauto).
  destruct (tyseq_spread (unguard G) n ts t Hts Hn T2) as (us & V1 & V2 & V3); [eapply tyseq_eq; [exact T3 | apply st_eq_refl | exact U3] |].
  apply tyd_alt. split; [destruct m; [now elim Hm | discriminate] |]. exists us. split; [| auto]. clear - T1 V1 Hn. revert us V1. induction T1 as [| g x m ts Hg _ IH]; intros us V1; inversion V1; subst; cbn [map]; constructor; inversion Hn; subst; [| auto].
  apply tyd_cat. eauto.
Qed.
Lemma words_spread m n : forall E w, lang_of E (GCat (GAlt m :: n)) w <-> lang_of E (GAlt (map (fun g => GCat (g :: n)) m)) w.
Proof.
  intros E w. rewrite lang_of_cat, (lang_of_alt E (map _ m)). cbn [lang_cats]. rewrite <- lang_of_cat. rewrite lang_of_alt. induction m as [| g m IH]; cbn [map lang_alts].
  - split; [intros (u & v & _ & [] & _) | intros []].
  - rewrite <- IH, lang_of_cat. cbn [lang_cats]. rewrite <- lang_of_cat. split.
    + intros (u & v & -> & [Hu | Hu] & Hv); [left | right]; exists u, v; auto.
    + intros [(u & v & -> & Hu & Hv) | (u & v & -> & Hu & Hv)]; exists u, v; auto.
Qed.
Lemma loosened_sim g g' : loosened g g' -> sim g g'.
Proof.
  induction 1 as [g g' H | l m n Hm | m n Hm | g g' g'' _ H1 _ H2 | l g g' n _ H | l g g' n _ H | g g' _ H].
  - exact (proj1 (rearranged_sim _ _ H)).
  - destruct l as [| h l]; [exact (proj1 (group_front m n Hm)) |]. intros G t K. cbn [app] in *. apply tyd_cat in K as (t1 & T1 & T2 & T3). apply tyd_cat. exists t1. split; [exact T1 |]. split; [exact T2 |].
    apply tyseq_app in T3 as (u & U1 & U2). apply tyseq_app. exists u. split; [exact U1 |]. apply tyseq_ungroup; [apply unguard_twice | eapply tyseq_front_full; eauto | exact Hm | exact U2].
  - exact (spread m n Hm).
  - intros G t K. auto.
  - apply sim_in_alt; assumption.
  - apply sim_in_cat; assumption.
  - apply sim_in_fix; assumption.
Qed.

(** ** Languages *)
Lemma alts_words E gs w : lang_of E (GAlt gs) w <-> exists g, In g gs /\ lang_of E g w.
Proof.
  rewrite lang_of_alt. induction gs as [| g gs IH]; cbn [lang_alts]; [split; [intros [] | intros (? & [] & _)] |]. rewrite IH. split.
  - intros [H | (x & Hi & H)]; [exists g; split; [now left | exact H] | exists x; split; [now right | exact H]].
  - intros (x & [<- | Hi] & H); [now left | right; eauto].
Qed.
Lemma cats_words E gs hs w : lang_of E (GCat (gs ++ hs)) w <-> lang_cat (lang_of E (GCat gs)) (lang_of E (GCat hs)) w.
Proof.
  rewrite !lang_of_cat. revert w. induction gs as [| g gs IH]; intros w; cbn [app lang_cats].
  - split; [intros H; exists [], w; auto | intros (u & v & -> & -> & H); exact H].
  - split.
    + intros (u & v & -> & Hu & Hv). apply IH in Hv as (a & b & -> & Ha & Hb). exists (u ++ a), b. rewrite app_assoc. split; [reflexivity |]. split; [exists u, a; auto | exact Hb].
    + intros (u & v & -> & (a & b & -> & Ha & Hb) & Hv). exists a, (b ++ v). rewrite app_assoc. split; [reflexivity |]. split; [exact Ha |]. apply IH. exists b, v. auto.
Qed.
Lemma cat_words E g gs w : lang_of E (GCat (g :: gs)) w <-> lang_cat (lang_of E g) (lang_of E (GCat gs)) w.
Proof. rewrite !lang_of_cat. reflexivity. Qed.
Lemma cat_ext (L L' M M' : lang) : (forall w, L w <-> L' w) -> (forall w, M w <-> M' w) -> forall w, lang_cat L M w <-> lang_cat L' M' w.
Proof. intros H1 H2 w. split; intros (u & v & -> & Hu & Hv); exists u, v; (split; [reflexivity |]); (split; [now apply H1 | now apply H2]). Qed.
Definition same_words (g g' : gram) : Prop := forall E w, lang_of E g w <-> lang_of E g' w.
Lemma words_in_alt l g g' n : same_words g g' -> same_words (GAlt (l ++ g :: n)) (GAlt (l ++ g' :: n)).
Proof.
  assert (K : forall g g', same_words g g' -> forall E w, lang_of E (GAlt (l ++ g :: n)) w -> lang_of E (GAlt (l ++ g' :: n)) w).
  { intros x y H E w Hw. apply alts_words in Hw as (z & Hi & Hz). apply alts_words. apply in_app_or in Hi as [Hi | [<- | Hi]]; [exists z | exists y | exists z]; (split; [apply in_or_app; cbn; auto |]); auto. now apply H. }
  intros H E w. split; apply K; [exact H | intros E' w'; symmetry; apply H].
Qed.
Lemma words_in_cat l g g' n : same_words g g' -> same_words (GCat (l ++ g :: n)) (GCat (l ++ g' :: n)).
Proof. intros H E w. rewrite !cats_words. apply cat_ext; [reflexivity |]. intros v. rewrite !cat_words. apply cat_ext; [apply H | reflexivity]. Qed.
Lemma words_in_fix g g' : same_words g g' -> same_words (GFix g) (GFix g').
Proof.
  assert (K : forall g g', same_words g g' -> forall E w, lang_of E (GFix g) w -> lang_of E (GFix g') w) by (intros x y H E; apply lang_fix_least; intros w Hw; apply lang_fix_unfold, H, Hw).
  intros H E w. split; apply K; [exact H | intros E' w'; symmetry; apply H].
Qed.
Lemma words_group_cat l m n : same_words (GCat (l ++ GCat m :: n)) (GCat (l ++ m ++ n)).
Proof. intros E w. rewrite !cats_words. apply cat_ext; [reflexivity |]. intros v. rewrite cat_words, cats_words. reflexivity. Qed.
Lemma rearranged_words g g' : rearranged g g' -> same_words g g'.
Proof.
  induction 1 as [gs gs' HP | l m n Hm | m n Hm | g | g g' _ H | g g' g'' _ H1 _ H2 | l g g' n _ H | l g g' n _ H | g g' _ H].
  - intros E w. rewrite !alts_words. split; intros (x & Hi & Hx); exists x; (split; [| exact Hx]); [exact (Permutation_in x HP Hi) | exact (Permutation_in x (Permutation_sym HP) Hi)].
  - intros E w. rewrite !alts_words. split.
    + intros (x & Hi & Hx). apply in_app_or in Hi as [Hi | [<- | Hi]]; [exists x; split; [apply in_or_app; auto | exact Hx] | | exists x; split; [apply in_or_app; right; apply in_or_app; auto | exact Hx]].
      apply alts_words in Hx as (y & Hy & Hx). exists y. split; [apply in_or_app; right; apply in_or_app; auto | exact Hx].
    + intros (x & Hi & Hx). apply in_app_or in Hi as [Hi | Hi]; [exists x; split; [apply in_or_app; auto | exact Hx] |]. apply in_app_or in Hi as [Hi | Hi]; [| exists x; split; [apply in_or_app; cbn; auto | exact Hx]].
      exists (GAlt m). split; [apply in_or_app; cbn; auto |]. apply alts_words. eauto.
  - exact (words_group_cat [] m n).
  - intros E w. reflexivity.
  - intros E w. symmetry. apply H.
  - intros E w. etransitivity; [apply H1 | apply H2].
  - apply words_in_alt; assumption.
  - apply words_in_cat; assumption.
  - apply words_in_fix; assumption.
Qed.
Lemma loosened_words g g' : loosened g g' -> same_words g g'.
Proof.
  induction 1 as [g g' H | l m n Hm | m n Hm | g g' g'' _ H1 _ H2 | l g g' n _ H | l g g' n _ H | g g' _ H].
  - now apply rearranged_words.
  - apply words_group_cat.
  - exact (words_spread m n).
  - intros E w. etransitivity; [apply H1 | apply H2].
  - apply words_in_alt; assumption.
  - apply words_in_cat; assumption.
  - apply words_in_fix; assumption.
Qed.
