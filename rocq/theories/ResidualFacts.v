(** * ResidualFacts: the residuals of an accepted grammar are stacks of finitely
    many languages. *)
From Verif Require Import SpecResidual SpecDefect LangFacts ExactFacts CombineFacts.
From Coq Require Import Lia.

Lemma cats_app Xs Ys w : cats (Xs ++ Ys) w <-> exists u v, w = u ++ v /\ cats Xs u /\ cats Ys v.
Proof.
  revert w. induction Xs as [| X Xs IH]; intros w; cbn [app cats].
  - split; [intros H; exists [], w; auto | intros (u & v & -> & -> & H); exact H].
  - split.
    + intros (u & v & -> & Hu & Hv). apply IH in Hv as (v1 & v2 & -> & H1 & H2). exists (u ++ v1), v2. split; [now rewrite app_assoc |]. split; [exists u, v1; auto | exact H2].
    + intros (u & v & -> & (u1 & u2 & -> & H1 & H2) & Hv). exists u1, (u2 ++ v). split; [now rewrite app_assoc |]. split; [exact H1 |]. apply IH. eauto.
Qed.
Lemma cats_one X w : cats [X] w <-> X w.
Proof. cbn. split; [intros (u & v & -> & H & ->); now rewrite app_nil_r | intros H; exists w, []; now rewrite app_nil_r]. Qed.
Lemma cats_map E gs w : cats (map (lang_of E) gs) w <-> lang_of E (GCat gs) w.
Proof.
  rewrite lang_of_cat. revert w. induction gs as [| g gs IH]; intros w; cbn [map cats lang_cats]; [reflexivity |]. split; intros (u & v & -> & H1 & H2); exists u, v; repeat split; auto; now apply IH.
Qed.

Lemma langs_behind r : langs (behind r) = langs r.
Proof. unfold langs, behind. rewrite map_map. reflexivity. Qed.
(** One character tells whether to stay in the front of a stack. *)
Definition separated (Xs : list lang) : Prop := forall Us Vs c, Xs = Us ++ Vs -> continues (cats Us) c -> ~ begins (cats Vs) c.
Lemma separated_one X : separated [X].
Proof.
  intros Us Vs c E (u & v & H1 & H2) [w H3]. destruct Us as [| U [| U' Us]]; cbn in E.
  - cbn in H1, H2. subst u. discriminate H2.
  - injection E as <- <-. discriminate H3.
  - injection E as _ E. discriminate E.
Qed.
(** Reading a character inside the first language of a stack. *)
Lemma separated_step X rest c Ys : separated (X :: rest) -> separated Ys -> (forall w, cats Ys w -> X (c :: w)) -> separated (Ys ++ rest).
Proof.
  intros HX HY HD Us Vs d E Hc Hb. apply app_eq_app in E as (l & [[-> ->] | [-> ->]]).
  - (* the cut is inside Ys *)
    destruct Hb as [w Hw]. apply cats_app in Hw as (p & q & Ew & Hp & Hq). destruct p as [| d' p].
    + cbn in Ew. subst q. apply (HX [X] rest d eq_refl); [| now exists w]. destruct Hc as (u & v & Hu & Hv). exists (c :: u), v. rewrite !cats_one. split; [apply HD | apply (HD (u ++ d :: v))]; apply cats_app; [exists u, [] | exists (u ++ d :: v), []]; rewrite app_nil_r; auto.
    + injection Ew as <- _. apply (HY Us l d eq_refl Hc). now exists p.
  - (* after Ys *)
    apply (HX (X :: l) Vs d eq_refl); [| exact Hb]. destruct Hc as (u & v & Hu & Hv). apply cats_app in Hu as (u1 & u2 & -> & H1 & H2). apply cats_app in Hv as (v1 & v2 & Ev & H3 & H4).
    exists (c :: u1 ++ u2), v. split; [exists (c :: u1), u2; auto |]. exists (c :: v1), v2. split; [cbn; now rewrite Ev |]. auto.
Qed.
Lemma separated_tail X rest : separated (X :: rest) -> (exists x, X x) -> separated rest.
Proof.
  intros H [x Hx] Us Vs c -> (u & v & Hu & Hv) Hb. apply (H (X :: Us) Vs c eq_refl); [| exact Hb]. exists (x ++ u), v. split; [exists x, u; auto |]. exists x, (u ++ c :: v). rewrite app_assoc. auto.
Qed.

(** The character [c] leads from [X] to a stack of languages of [C]. *)
Definition leads (C : list lang) (X : lang) : Prop :=
  forall c w0, X (c :: w0) -> exists Ys, incl Ys C /\ separated Ys /\ forall w, X (c :: w) <-> cats Ys w.
Lemma stack_step C Xs c w0 : Forall (leads C) Xs -> incl Xs C -> separated Xs -> cats Xs (c :: w0) -> exists Zs, incl Zs C /\ separated Zs /\ forall w, cats Xs (c :: w) <-> cats Zs w.
Proof.
  intros HF. revert w0. induction HF as [| X rest HX _ IH]; intros w0 Hi Hs Hw; [discriminate Hw |]. destruct Hw as (u & v & E & Hu & Hv). destruct u as [| d u].
  - cbn in E. subst v. destruct (IH w0) as (Zs & Z1 & Z2 & Z3); [intros x Hx; apply Hi; now right | eapply separated_tail; eauto | exact Hv |]. exists Zs. split; [exact Z1 |]. split; [exact Z2 |]. intros w. rewrite <- Z3. split.
    + intros (u & v & E & H1 & H2). destruct u as [| d u]; [cbn in E; now subst v |]. injection E as <- ->. elim (Hs [X] rest c eq_refl); [| now exists w0]. exists [], u. now rewrite !cats_one.
    + intros H. exists [], (c :: w). auto.
  - injection E as <- ->. destruct (HX c u Hu) as (Ys & Y1 & Y2 & Y3). exists (Ys ++ rest). split; [apply incl_app; [exact Y1 | intros x Hx; apply Hi; now right] |]. split; [eapply separated_step; eauto; intros w; apply Y3 |].
    intros w. rewrite cats_app. split.
    + intros (p & q & E & H1 & H2). destruct p as [| d p]; [| injection E as <- ->; exists p, q; rewrite <- Y3; auto]. cbn in E. subst q. elim (Hs [X] rest c eq_refl); [| now exists w]. exists [], u. now rewrite !cats_one.
    + intros (p & q & -> & H1 & H2). exists (c :: p), q. apply Y3 in H1. auto.
Qed.
Theorem stack_residual C u : Forall (leads C) C -> forall Xs, incl Xs C -> separated Xs -> (exists w, cats Xs (u ++ w)) -> exists Zs, incl Zs C /\ separated Zs /\ forall w, cats Xs (u ++ w) <-> cats Zs w.
Proof.
  intros HC. induction u as [| c u IH]; intros Xs Hi Hs [w Hw]; [exists Xs; repeat split; auto |]. cbn [app] in *.
  destruct (stack_step C Xs c (u ++ w)) as (Ys & Y1 & Y2 & Y3); auto. { apply Forall_forall. intros x Hx. rewrite Forall_forall in HC. auto. }
  destruct (IH Ys Y1 Y2) as (Zs & Z1 & Z2 & Z3); [exists w; now apply Y3 |]. exists Zs. split; [exact Z1 |]. split; [exact Z2 |]. intros v. now rewrite Y3.
Qed.

(** ** The languages of the parts of a grammar *)
Fixpoint tails (s : rstr) : list lang := (fun w => w = s) :: match s with [] => [] | _ :: s' => tails s' end.
Fixpoint comps (E : list lang) (g : gram) : list lang :=
  lang_of E g ::
  match g with
  | GLit s => tails s
  | GCat gs | GAlt gs => (fix go l := match l with [] => [] | h :: l' => comps E h ++ go l' end) gs
  | GFix g => comps (lang_of E (GFix g) :: E) g
  | _ => []
  end.
Lemma comps_self E g : In (lang_of E g) (comps E g).
Proof. destruct g; now left. Qed.
Lemma comps_part E gs h : In h gs -> incl (comps E h) (comps E (GCat gs)) /\ incl (comps E h) (comps E (GAlt gs)).
Proof.
  intros Hi. assert (K : incl (comps E h) ((fix go l := match l with [] => [] | h :: l' => comps E h ++ go l' end) gs)).
  { induction gs as [| g gs IH]; [elim Hi |]. destruct Hi as [-> | Hi]; [apply incl_appl, incl_refl | apply incl_appr; auto]. }
  split; intros x Hx; right; now apply K.
Qed.
Lemma comps_parts (P : lang -> Prop) E gs : (forall h, In h gs -> Forall P (comps E h)) -> Forall P ((fix go l := match l with [] => [] | h :: l' => comps E h ++ go l' end) gs).
Proof. intros H. induction gs as [| g gs IH]; [constructor |]. apply Forall_app. split; [apply H; now left | apply IH; intros h Hh; apply H; now right]. Qed.

Lemma parts_separated r gs : ~ defect r (GCat gs) -> separated (map (lang_of (langs r)) gs).
Proof.
  intros Hd Us Vs c E Hc Hb. revert Us E Hc. induction Vs as [| V Vs IH]; intros Us E Hc; [destruct Hb as [w Hw]; discriminate Hw |].
  apply map_eq_app in E as (l1 & l2 & -> & <- & E2). destruct l2 as [| h l2]; [discriminate E2 |]. cbn in E2. injection E2 as <- <-.
  destruct Hb as [w (p & q & Ew & Hp & Hq)]. destruct p as [| d p].
  - cbn in Ew. subst q. apply (IH ltac:(now exists w) (map (lang_of (langs r)) l1 ++ [lang_of (langs r) h])).
    + rewrite map_app, <- app_assoc. reflexivity.
    + destruct Hc as (u & v & Hu & Hv). exists u, v. split; apply cats_app; [exists u, [] | exists (u ++ c :: v), []]; rewrite app_nil_r, cats_one; auto.
  - injection Ew as <- _. destruct Hc as (u & v & Hu & Hv). rewrite cats_map in Hu, Hv. apply Hd. apply (defect_end r l1 h l2 u c v p); auto. intros ->. cbn in Hu, Hv. subst u. discriminate Hv.
Qed.

Lemma tails_lead C s : incl (tails s) C -> Forall (leads C) (tails s).
Proof.
  induction s as [| d s IH]; cbn [tails]; intros Hi; constructor; [intros c w0 H; discriminate H | constructor | | apply IH; intros x Hx; apply Hi; now right].
  intros c w0 [= -> ->]. exists [fun w => w = s]. split; [intros x [<- | []]; apply Hi; right; destruct s; now left |]. split; [apply separated_one |]. intros w. rewrite cats_one. split; [now intros [= ->] | now intros ->].
Qed.
Lemma leads_same C X Y : (forall w, X w <-> Y w) -> leads C X -> leads C Y.
Proof. intros H D c w0 Hw. apply H in Hw. destruct (D c w0 Hw) as (Ys & Y1 & Y2 & Y3). exists Ys. split; [exact Y1 |]. split; [exact Y2 |]. intros w. now rewrite <- H. Qed.

Lemma part_leads C g : forall r, ~ defect r g -> incl (comps (langs r) g) C -> (forall i L, nth_error r i = Some (true, L) -> leads C L) -> leads C (lang_of (langs r) g).
Proof.
  induction g as [| s | gs IH | gs IH | g IH | i] using gram_ind'; intros r Hd Hi Hr.
  - intros c w0 H. discriminate H.
  - assert (K : Forall (leads C) (tails s)) by (apply tails_lead; intros x Hx; apply Hi; now right). destruct s; cbn [tails] in K; apply Forall_cons_iff in K as [K _]; exact K.
  - destruct gs as [| g gs]; [intros c w0 H; discriminate H |]. apply Forall_cons_iff in IH as [IH _]. intros c w0 Hw.
    assert (Dg : leads C (lang_of (langs r) g)). { apply IH; [intros K; apply Hd; now apply defect_in_first | intros x Hx; apply Hi; apply (proj1 (comps_part _ (g :: gs) g (or_introl eq_refl))); exact Hx | exact Hr]. }
    pose proof (parts_separated r (g :: gs) Hd) as Sp. cbn [map] in Sp. rewrite <- cats_map in Hw. cbn [map cats] in Hw. destruct Hw as (u & v & E & Hu & Hv). destruct u as [| d u]; [elim Hd; now apply defect_nullable |]. injection E as <- ->.
    destruct (Dg c u Hu) as (Ys & Y1 & Y2 & Y3). exists (Ys ++ map (lang_of (langs r)) gs). split; [| split; [eapply separated_step; eauto; intros w; apply Y3 |]].
    + apply incl_app; [exact Y1 |]. intros x Hx. apply in_map_iff in Hx as (h & <- & Hh). apply Hi. apply (proj1 (comps_part _ (g :: gs) h (or_intror Hh))). apply comps_self.
    + intros w. rewrite <- cats_map. cbn [map cats]. rewrite cats_app. split.
      * intros (p & q & E & H1 & H2). destruct p as [| d p]; [elim Hd; now apply defect_nullable |]. injection E as <- ->. exists p, q. rewrite <- Y3. auto.
      * intros (p & q & -> & H1 & H2). exists (c :: p), q. apply Y3 in H1. auto.
  - intros c w0 Hw. assert (K : forall gs w, lang_of (langs r) (GAlt gs) w <-> exists h, In h gs /\ lang_of (langs r) h w).
    { intros l w. rewrite lang_of_alt. induction l as [| h l IHl]; cbn [lang_alts]; [split; [intros [] | intros (h & [] & _)] |]. rewrite IHl. split; [intros [H | (h' & H1 & H2)]; [exists h | exists h']; cbn; auto | intros (h' & [<- | H1] & H2); eauto]. }
    apply K in Hw as (h & Hh & Hw). rewrite Forall_forall in IH. destruct (IH h Hh r) with (c := c) (w0 := w0) as (Ys & Y1 & Y2 & Y3); auto. { intros D. apply Hd. now apply (defect_in_alt r gs h). } { intros x Hx. apply Hi. now apply (proj2 (comps_part _ gs h Hh)). }
    exists Ys. split; [exact Y1 |]. split; [exact Y2 |]. intros w. rewrite <- Y3, K. split; [| eauto]. intros (h' & Hh' & Hw').
    apply in_split in Hh as (l1 & l2 & ->). apply in_app_iff in Hh' as [Hh' | [-> | Hh']]; [| exact Hw' |]; exfalso; apply Hd; apply in_split in Hh' as (m1 & m2 & ->).
    + rewrite <- app_assoc. cbn [app]. now apply (defect_start r m1 h' m2 h l2 c w w0).
    + now apply (defect_start r l1 h m1 h' m2 c w0 w).
  - apply (leads_same C (lang_of (langs (enter g r)) g)); [intros w; symmetry; apply lang_fix_unfold |]. apply IH.
    + intros D. apply Hd. now apply defect_in_fix.
    + intros x Hx. apply Hi. now right.
    + intros [| i] L HL; [discriminate HL | exact (Hr i L HL)].
  - cbn [lang_of]. destruct (nth_error r i) as [[[|] L] |] eqn:E.
    + unfold langs. rewrite (nth_error_nth _ i lang_empty (map_nth_error snd i r E)). eauto.
    + elim Hd. eapply defect_exposed; eauto.
    + elim Hd. apply defect_free. now apply nth_error_None.
Qed.
Lemma comps_lead C g : forall r, ~ defect r g -> incl (comps (langs r) g) C -> (forall i b L, nth_error r i = Some (b, L) -> leads C L) -> Forall (leads C) (comps (langs r) g).
Proof.
  induction g as [| s | gs IH | gs IH | g IH | i] using gram_ind'; intros r Hd Hi Hr; constructor; try (apply part_leads; eauto; fail).
  - constructor.
  - apply tails_lead. intros x Hx. apply Hi. now right.
  - apply comps_parts. intros h Hh. rewrite Forall_forall in IH. assert (Hin : incl (comps (langs r) h) C) by (intros x Hx; apply Hi; now apply (proj1 (comps_part _ gs h Hh))). destruct gs as [| g gs]; [elim Hh |]. destruct Hh as [<- | Hh].
    + apply IH; [now left | intros D; apply Hd; now apply defect_in_first | exact Hin | exact Hr].
    + rewrite <- langs_behind in *. apply IH; [now right | intros D; apply Hd; now apply (defect_in_rest r g gs h) | exact Hin |]. intros i b L HL. unfold behind in HL. rewrite nth_error_map in HL. destruct (nth_error r i) as [[b' L'] |] eqn:E; [| discriminate HL]. injection HL as _ <-. eauto.
  - apply comps_parts. intros h Hh. rewrite Forall_forall in IH. apply IH; [exact Hh | intros D; apply Hd; now apply (defect_in_alt r gs h) | intros x Hx; apply Hi; now apply (proj2 (comps_part _ gs h Hh)) | exact Hr].
  - assert (K : leads C (lang_of (langs r) (GFix g))) by (apply part_leads; eauto). apply (IH (enter g r)); [intros D; apply Hd; now apply defect_in_fix | intros x Hx; apply Hi; now right |]. intros [| i] b L HL; [| exact (Hr i b L HL)]. injection HL as _ <-. exact K.
  - constructor.
Qed.
