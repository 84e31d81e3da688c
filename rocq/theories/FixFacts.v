(** * FixFacts: unfolding fixed points. *)
From Verif Require Export SpecFix.
From Verif Require Import SimpleFacts BetaFacts StepFacts LangFacts.
From Coq Require Import Lia.

(** A grammar: by induction on the expression, without looking under a fix. *)
Lemma grammar_ind (P : lexpr -> gram -> Prop) :
  P LEps GEps -> (forall s, P (LLit s) (GLit s)) -> (forall i, P (LVar i) (GVar i)) ->
  (forall l gs, each lgram l = Some gs -> Forall2 P l gs -> P (LCat l) (GCat gs)) ->
  (forall l gs, each lgram l = Some gs -> Forall2 P l gs -> P (LAlt l) (GAlt gs)) ->
  (forall n b g, lgram b = Some g -> P b g -> P (LFix (LLam n b)) (GFix g)) ->
  forall e g, lgram e = Some g -> P e g.
Proof.
  intros He Hl Hv Hc Ha Hf e.
  assert (HL : forall l, Forall (fun e => (forall g, lgram e = Some g -> P e g) /\ match e with LLam _ b => forall g, lgram b = Some g -> P b g | _ => True end) l ->
    forall gs, each lgram l = Some gs -> Forall2 P l gs).
  { intros l H gs E. apply each_Forall2 in E. revert H. induction E as [| x y l l' Hx _ IHE]; intros H'; constructor; apply Forall_cons_iff in H' as [[H1 _] H2]; auto. }
  enough (H : (forall g, lgram e = Some g -> P e g) /\ match e with LLam _ b => forall g, lgram b = Some g -> P b g | _ => True end) by apply H.
  induction e as [| s | l H | l H | f IH | i | o l IH H | k b IH | x y IH IH2] using lexpr_ind'; (split; [intros g E; cbn [lgram] in E | try exact Logic.I]).
  - now injection E as <-.
  - now injection E as <-.
  - destruct (each lgram l) as [gs |] eqn:El; [| discriminate E]. injection E as <-. apply Hc; [exact El | now apply HL].
  - destruct (each lgram l) as [gs |] eqn:El; [| discriminate E]. injection E as <-. apply Ha; [exact El | now apply HL].
  - destruct f as [| | | | | | | n b |]; try discriminate E. destruct (lgram b) as [h |] eqn:Eb; [| discriminate E]. injection E as <-.
    apply Hf; [exact Eb |]. now apply (proj2 IH).
  - now injection E as <-.
  - discriminate E.
  - discriminate E.
  - apply IH.
  - discriminate E.
Qed.

Lemma same_lang_cons L M E : same_lang L M -> forall g, same_lang (lang_of (L :: E) g) (lang_of (M :: E) g).
Proof.
  intros H g w. split; apply lang_of_mono; apply lenv_le_cons; try apply lenv_le_refl; intros u; apply H.
Qed.
Lemma same_fix E F g h : (forall X, same_lang (lang_of (X :: E) g) (lang_of (X :: F) h)) -> same_lang (lang_of E (GFix g)) (lang_of F (GFix h)).
Proof.
  intros H w. rewrite !lang_of_fix. assert (A : forall n, same_lang (approx E g n) (approx F h n)).
  { induction n as [| n IH]; [intros u; reflexivity |]. intros u. rewrite !approx_S. rewrite (H _ u). now apply same_lang_cons. }
  split; intros [n Hn]; exists n; now apply A.
Qed.
Lemma same_lists E F (gs hs : list gram) :
  Forall2 (fun g h => same_lang (lang_of E g) (lang_of F h)) gs hs -> same_lang (lang_of E (GCat gs)) (lang_of F (GCat hs))
  /\ same_lang (lang_of E (GAlt gs)) (lang_of F (GAlt hs)).
Proof.
  intros H. rewrite !lang_of_cat, !lang_of_alt. induction H as [| g h gs hs Hg _ [IH1 IH2]]; [split; intros w; reflexivity |].
  split; intros w; cbn [lang_cats lang_alts].
  - now apply lang_cat_ext.
  - rewrite (Hg w), (IH2 w). reflexivity.
Qed.

Lemma lang_lren e g : lgram e = Some g -> single e -> forall r, exists g', lgram (lren r e) = Some g'
  /\ forall E F, (forall i, same_lang (nth (r i) E lang_empty) (nth i F lang_empty)) -> same_lang (lang_of E g') (lang_of F g).
Proof.
  assert (HL : forall l gs, Forall2 (fun e g => single e -> forall r, exists g', lgram (lren r e) = Some g'
      /\ forall E F, (forall i, same_lang (nth (r i) E lang_empty) (nth i F lang_empty)) -> same_lang (lang_of E g') (lang_of F g)) l gs ->
    Forall single l -> forall r, exists hs, each lgram (map (lren r) l) = Some hs
      /\ forall E F, (forall i, same_lang (nth (r i) E lang_empty) (nth i F lang_empty)) -> Forall2 (fun g h => same_lang (lang_of E g) (lang_of F h)) hs gs).
  { intros l gs H. induction H as [| x h l gs Hx _ IH]; intros Hs r; [exists []; split; [reflexivity | constructor] |].
    apply Forall_cons_iff in Hs as [Hs1 Hs2]. destruct (Hx Hs1 r) as (g1 & E1 & H1). destruct (IH Hs2 r) as (hs & E2 & H2).
    exists (g1 :: hs). cbn [each map]. rewrite E1. cbn [each] in E2. rewrite E2. split; [reflexivity |]. intros E F HE. constructor; [now apply H1 | now apply H2]. }
  intros Eg. revert e g Eg. apply (grammar_ind (fun e g => single e -> forall r, exists g', lgram (lren r e) = Some g'
      /\ forall E F, (forall i, same_lang (nth (r i) E lang_empty) (nth i F lang_empty)) -> same_lang (lang_of E g') (lang_of F g))).
  - intros _ r. exists GEps. split; [reflexivity |]. intros E F _ w. reflexivity.
  - intros s _ r. exists (GLit s). split; [reflexivity |]. intros E F _ w. reflexivity.
  - intros i _ r. exists (GVar (r i)). split; [reflexivity |]. intros E F H w. apply H.
  - intros l gs _ H Hs r. apply single_list in Hs. destruct (HL l gs H Hs r) as (hs & E1 & H1). exists (GCat hs). cbn [lren lgram]. rewrite E1.
    split; [reflexivity |]. intros E F HE. now apply same_lists, H1.
  - intros l gs _ H Hs r. apply single_list in Hs. destruct (HL l gs H Hs r) as (hs & E1 & H1). exists (GAlt hs). cbn [lren lgram]. rewrite E1.
    split; [reflexivity |]. intros E F HE. now apply same_lists, H1.
  - intros n b g _ IH [Hs ->] r. destruct (IH Hs (upr 1 r)) as (g' & E1 & H1). exists (GFix g'). cbn [lren lgram]. rewrite E1. split; [reflexivity |].
    intros E F HE. apply same_fix. intros X. apply H1. intros [| i]; unfold upr; cbn [Nat.ltb Nat.leb nth]; [intros w; reflexivity |].
    replace (S i - 1) with i by lia. apply HE.
Qed.

Definition good_sub (s : nat -> lexpr) : Prop := forall i, is_grammar (s i) /\ single (s i).
Definition subst_ok (e : lexpr) (g : gram) : Prop := single e -> forall s, good_sub s -> exists g', lgram (lsub s e) = Some g'
  /\ forall E F, (forall i h, lgram (s i) = Some h -> same_lang (lang_of E h) (nth i F lang_empty)) -> same_lang (lang_of E g') (lang_of F g).
Lemma good_ups s : good_sub s -> good_sub (ups 1 s).
Proof.
  intros H [| i]; unfold ups; cbn; [split; [eexists; reflexivity | exact Logic.I] |]. rewrite Nat.sub_0_r. destruct (H i). split; [now apply is_grammar_lren | now apply single_lren].
Qed.
Lemma lang_lsub e g : lgram e = Some g -> subst_ok e g.
Proof.
  assert (HL : forall l gs, Forall2 subst_ok l gs ->
    Forall single l -> forall s, good_sub s -> exists hs, each lgram (map (lsub s) l) = Some hs
      /\ forall E F, (forall i h, lgram (s i) = Some h -> same_lang (lang_of E h) (nth i F lang_empty)) -> Forall2 (fun g h => same_lang (lang_of E g) (lang_of F h)) hs gs).
  { intros l gs H. induction H as [| x h l gs Hx _ IH]; intros Hs s Hgs; [exists []; split; [reflexivity | constructor] |].
    apply Forall_cons_iff in Hs as [Hs1 Hs2]. destruct (Hx Hs1 s Hgs) as (g1 & E1 & H1). destruct (IH Hs2 s Hgs) as (hs & E2 & H2).
    exists (g1 :: hs). cbn [each map]. rewrite E1. cbn [each] in E2. rewrite E2. split; [reflexivity |]. intros E F HE. constructor; [now apply H1 | now apply H2]. }
  revert e g. apply grammar_ind; unfold subst_ok.
  - intros _ s _. exists GEps. split; [reflexivity |]. intros E F _ w. reflexivity.
  - intros s _ r _. exists (GLit s). split; [reflexivity |]. intros E F _ w. reflexivity.
  - intros i _ s Hs. destruct (Hs i) as [[g Hg] _]. exists g. split; [exact Hg |]. intros E F H w. now apply H.
  - intros l gs _ H Hs s Hgs. apply single_list in Hs. destruct (HL l gs H Hs s Hgs) as (hs & E1 & H1). exists (GCat hs). cbn [lsub lgram]. rewrite E1.
    split; [reflexivity |]. intros E F HE. now apply same_lists, H1.
  - intros l gs _ H Hs s Hgs. apply single_list in Hs. destruct (HL l gs H Hs s Hgs) as (hs & E1 & H1). exists (GAlt hs). cbn [lsub lgram]. rewrite E1.
    split; [reflexivity |]. intros E F HE. now apply same_lists, H1.
  - intros n b g _ IH [Hs ->] s Hgs. destruct (IH Hs (ups 1 s) (good_ups s Hgs)) as (g' & E1 & H1). exists (GFix g'). cbn [lsub lgram]. rewrite E1. split; [reflexivity |].
    intros E F HE. apply same_fix. intros X. apply H1. intros [| i] h; unfold ups; cbn [Nat.ltb Nat.leb nth].
    + intros [= <-] w. reflexivity.
    + replace (S i - 1) with i by lia. intros Hh. destruct (Hgs i) as [[k Hk] Hsi]. destruct (lang_lren _ _ Hk Hsi (Nat.add 1)) as (k' & Ek & Hk').
      rewrite Ek in Hh. injection Hh as <-. intros w. rewrite <- (HE i k Hk w). apply Hk'. intros j u. reflexivity.
Qed.

(** A fixed point and its function applied to it. *)
Theorem fix_unfold f w g : steps (LFix f) w -> lgram w = Some g -> single w ->
  exists w' g', steps (LCall f [LFix f]) w' /\ lgram w' = Some g' /\ forall env, same_lang (lang_of env g) (lang_of env g').
Proof.
  intros Hs Hg Hw. apply (evals_grammar _ _ _ Hg) in Hs. inversion Hs as [| | | | | | e n b b' He Hb | e v He Hv | |]; subst.
  2: { destruct v; try discriminate Hg. discriminate Hv. }
  destruct Hw as [Hw ->]. cbn [lgram] in Hg. destruct (lgram b') as [gb |] eqn:Eb; [| discriminate Hg]. injection Hg as <-.
  set (W := LFix (LLam 1 b')). assert (HW : lgram W = Some (GFix gb)) by (cbn; now rewrite Eb).
  destruct (lang_lsub b' gb Eb Hw (inst [W])) as (g' & E' & H').
  { intros [| i]; cbn; [split; [eexists; exact HW | now split] |]. unfold inst. destruct i; cbn; split; try exact Logic.I; eexists; reflexivity. }
  exists (lsub (inst [W]) b'), g'. split; [| split; [exact E' |]].
  - assert (H1 : steps f (LLam 1 b')).
    { eapply steps_trans; [apply (proj1 evals_steps); exact He |]. apply steps_lam. now apply (proj1 evals_steps). }
    eapply steps_trans; [apply steps_fun; exact H1 |]. eapply steps_trans.
    + assert (Ha : forall x y, steps x y -> steps (LCall (LLam 1 b') [x]) (LCall (LLam 1 b') [y])).
      { induction 1 as [x | x y z Hxy _ IH]; [constructor |]. eapply steps_step; [| exact IH]. exact (step_arg _ [] x y [] Hxy). }
      apply Ha, steps_fix, H1.
    + apply steps_one. now apply step_beta.
  - intros env x. rewrite lang_fix_unfold. symmetry. apply H'. intros [| i] h.
    + intros Hh. change (inst [W] 0) with W in Hh. rewrite HW in Hh. injection Hh as <-. intros u. reflexivity.
    + replace (inst [W] (S i)) with (LVar i) by (unfold inst; cbn; destruct i; reflexivity). intros [= <-] u. reflexivity.
Qed.
