(** * SimpleFacts: simply typed programs always evaluate, to a grammar. *)
From Verif Require Import SpecSimple BetaFacts StepFacts.
From Verif Require Export SpecFix.
From Coq Require Import Lia.

Scheme has_sty_mi := Minimality for has_sty Sort Prop
with have_sty_mi := Minimality for have_sty Sort Prop.
Combined Scheme has_sty_mut from has_sty_mi, have_sty_mi.

Lemma is_lam_lren r v : is_lam (lren r v) = is_lam v.
Proof. now destruct v. Qed.
Lemma evals_lren :
  (forall e v, evals e v -> forall r, evals (lren r e) (lren r v)) /\
  (forall l l', evals_list l l' -> forall r, evals_list (map (lren r) l) (map (lren r) l')).
Proof.
  apply evals_mut; intros; cbn in *; try (constructor; auto; fail).
  - eapply ev_fix; eauto.
  - apply ev_fix_other; [auto | now rewrite is_lam_lren].
  - eapply ev_call; [apply H0 | now rewrite map_length |]. rewrite <- H1, <- inst_lren. apply H3.
  - apply ev_let. specialize (H0 r). rewrite (inst_lren [x]) in H0. exact H0.
Qed.
Definition is_grammar (v : lexpr) : Prop := exists g, lgram v = Some g.
Lemma is_grammar_list l : is_grammar (LCat l) <-> Forall is_grammar l.
Proof.
  unfold is_grammar. cbn [lgram]. split.
  - intros [g H]. destruct (each lgram l) as [gs |] eqn:E; [| discriminate H]. apply each_Forall2 in E.
    clear g H. induction E; constructor; auto. eexists; eassumption.
  - intros H. enough (E : exists gs, each lgram l = Some gs) by (destruct E as [gs ->]; eexists; reflexivity).
    induction H as [| x l [g Hg] _ [gs E]]; [now exists [] |]. exists (g :: gs). cbn. now rewrite Hg, E.
Qed.
Lemma is_grammar_alt l : is_grammar (LAlt l) <-> Forall is_grammar l.
Proof.
  rewrite <- is_grammar_list. unfold is_grammar. cbn [lgram]. split; intros [g H]; destruct (each lgram l); try discriminate H; eexists; reflexivity.
Qed.
Lemma is_grammar_fix n b : is_grammar (LFix (LLam n b)) <-> is_grammar b.
Proof. unfold is_grammar. cbn [lgram]. split; intros [g H]; destruct (lgram b); try discriminate H; eexists; reflexivity. Qed.
Lemma is_grammar_lren v : forall r, is_grammar v -> is_grammar (lren r v).
Proof.
  enough (H : (forall r, is_grammar v -> is_grammar (lren r v)) /\
    match v with LLam _ b => forall r, is_grammar b -> is_grammar (lren r b) | _ => True end) by apply H.
  induction v as [| s | l H | l H | i IH | i | o l IH H | k i IH | x y IH IH2] using lexpr_ind';
    (split; [intros r Hv; cbn [lren] | try exact Logic.I]); auto.
  - apply is_grammar_list. apply is_grammar_list in Hv. eapply Forall_map_impl; [| exact Hv].
    eapply Forall_impl; [| exact H]. cbn. intros a Ha. apply Ha.
  - apply is_grammar_alt. apply is_grammar_alt in Hv. eapply Forall_map_impl; [| exact Hv].
    eapply Forall_impl; [| exact H]. cbn. intros a Ha. apply Ha.
  - destruct i as [| | | | | | | n b |]; try (destruct Hv; discriminate). apply (proj1 (is_grammar_fix n b)) in Hv.
    cbn [lren]. apply (proj2 (is_grammar_fix n _)). apply (proj2 IH). exact Hv.
  - eexists. reflexivity.
  - apply IH.
Qed.

Lemma single_list l : (fix go l := match l with [] => True | x :: l' => single x /\ go l' end) l <-> Forall single l.
Proof.
  induction l as [| x l IH]; [split; constructor |]. rewrite IH. split; [intros [? ?]; now constructor | intros H; inversion H; auto].
Qed.
Lemma single_lren e : forall r, single e -> single (lren r e).
Proof.
  induction e as [| s | l H | l H | f IH | i | o l IH H | k b IH | x y IH IH2] using lexpr_ind'; intros r He; cbn [lren single] in *; auto.
  - apply single_list. apply single_list in He. eapply Forall_map_impl; [| exact He]. eapply Forall_impl; [| exact H]. cbn. auto.
  - apply single_list. apply single_list in He. eapply Forall_map_impl; [| exact He]. eapply Forall_impl; [| exact H]. cbn. auto.
  - destruct He as [H1 H2]. split; [auto |]. destruct f; cbn [lren]; auto.
  - destruct He as [H1 H2]. split; [auto |]. apply single_list. apply single_list in H2. eapply Forall_map_impl; [| exact H2].
    eapply Forall_impl; [| exact H]. cbn. auto.
  - destruct He. auto.
Qed.

(** ** The logical relation *)
Definition all2 {A B} (R : A -> B -> Prop) : list A -> list B -> Prop :=
  fix go l m := match l, m with
  | [], [] => True
  | x :: l', y :: m' => R x y /\ go l' m'
  | _, _ => False
  end.
Fixpoint good (A : sty) (e : lexpr) {struct A} : Prop :=
  match A with
  | SGram => exists v, evals e v /\ is_grammar v /\ single v
  | SFun ps B => exists b, evals e (LLam (length ps) b) /\
      forall r args, all2 good ps args -> good B (lsub (inst args) (lren (upr (length ps) r) b))
  end.
Lemma all2_len {A B} (R : A -> B -> Prop) l : forall m, all2 R l m -> length l = length m.
Proof. induction l as [| x l IH]; intros [| y m] H; cbn in *; try contradiction; auto. f_equal. now apply IH. Qed.
Lemma all2_nth {A B} (R : A -> B -> Prop) l : forall m i a, all2 R l m -> nth_error l i = Some a ->
  exists b, nth_error m i = Some b /\ R a b.
Proof.
  induction l as [| x l IH]; intros [| y m] [| i] a H E; cbn in *; try contradiction; try discriminate E.
  - injection E as <-. destruct H. eauto.
  - destruct H. eauto.
Qed.
Lemma all2_app {A B} (R : A -> B -> Prop) l l' m m' : all2 R l m -> all2 R l' m' -> all2 R (l ++ l') (m ++ m').
Proof. revert m. induction l as [| x l IH]; intros [| y m] H H'; cbn in *; try contradiction; auto. destruct H. auto. Qed.
Lemma all2_rev {A B} (R : A -> B -> Prop) l m : all2 R l m -> all2 R (rev l) (rev m).
Proof.
  revert m. induction l as [| x l IH]; intros [| y m] H; cbn in *; try contradiction; auto.
  destruct H. apply all2_app; [auto |]. cbn. auto.
Qed.

Lemma upr_upr n r1 r2 i : upr n r2 (upr n r1 i) = upr n (fun i => r2 (r1 i)) i.
Proof. unfold upr. ltb_cases; try lia. f_equal. f_equal. f_equal. lia. Qed.
Lemma good_lren A e r : good A e -> good A (lren r e).
Proof.
  destruct A as [| ps B]; cbn.
  - intros (v & H & G). exists (lren r v). split; [now apply evals_lren |]. split; [now apply is_grammar_lren | now apply single_lren].
  - intros (b & H & G). exists (lren (upr (length ps) r) b). split; [now apply (proj1 evals_lren _ _ H) |].
    intros r' args Ha. rewrite lren_lren. specialize (G (fun i => r' (r i)) args Ha).
    erewrite lren_ext; [exact G |]. intros i. apply upr_upr.
Qed.
Lemma good_expand A x y : (forall v, evals y v -> evals x v) -> good A y -> good A x.
Proof.
  intros H. destruct A as [| ps B]; cbn.
  - intros (v & Hv & G). eauto.
  - intros (b & Hb & G). eauto.
Qed.

Lemma typed_good :
  (forall G e A, has_sty G e A -> forall s, (forall i B, nth_error G i = Some B -> good B (s i)) -> good A (lsub s e)) /\
  (forall G l As, have_sty G l As -> forall s, (forall i B, nth_error G i = Some B -> good B (s i)) ->
     all2 good As (map (lsub s) l)).
Proof.
  assert (GL : forall (l : list lexpr) (f : lexpr -> lexpr), all2 good (map (fun _ => SGram) l) (map f l) ->
    exists l', evals_list (map f l) l' /\ Forall is_grammar l' /\ Forall single l').
  { induction l as [| x l IH]; intros f H; cbn in H; [exists []; repeat split; constructor |].
    destruct H as ((v & Hv & Gv & Sv) & H). destruct (IH f H) as (l' & Hl & Gl & Sl). exists (v :: l'). repeat split; constructor; auto. }
  apply has_sty_mut.
  - intros. exists LEps. split; [constructor |]. split; [eexists; reflexivity | exact Logic.I].
  - intros. exists (LLit s). split; [constructor |]. split; [eexists; reflexivity | exact Logic.I].
  - intros G l _ IH s Hs. destruct (GL l (lsub s) (IH s Hs)) as (l' & H1 & H2 & H3).
    exists (LCat l'). split; [now constructor |]. split; [now apply is_grammar_list | now apply single_list].
  - intros G l _ IH s Hs. destruct (GL l (lsub s) (IH s Hs)) as (l' & H1 & H2 & H3).
    exists (LAlt l'). split; [now constructor |]. split; [now apply is_grammar_alt | now apply single_list].
  - intros G f _ IH s Hs. destruct (IH s Hs) as (b & Hb & Gb). cbn [length] in *.
    destruct (Gb S [LVar 0]) as (v & Hv & Gv & Sv).
    { cbn. split; [| exact Logic.I]. exists (LVar 0). split; [constructor |]. split; [eexists; reflexivity | exact Logic.I]. }
    rewrite lsub_lren, lsub_id in Hv.
    + exists (LFix (LLam 1 v)). split; [cbn; eapply ev_fix; eauto |]. split; [now apply is_grammar_fix | now split].
    + intros [| i]; unfold upr; cbn; [reflexivity |]. unfold inst. cbn. destruct i; reflexivity.
  - intros G i A Hi s Hs. cbn. auto.
  - intros G f ps A args _ IHf _ IHa s Hs. destruct (IHf s Hs) as (b & Hb & Gb). specialize (IHa s Hs).
    specialize (Gb (fun i => i) _ IHa). rewrite lren_id in Gb by (intros i; unfold upr; ltb_cases; lia).
    cbn. eapply good_expand; [| exact Gb]. intros v Hv. eapply ev_call; [exact Hb | | exact Hv].
    symmetry. eapply all2_len. exact IHa.
  - intros G ps b A _ IH s Hs. cbn. eexists. split; [constructor |]. intros r args Ha.
    rewrite lren_lsub, lsub_lsub. apply IH. intros i B Hi. unfold ups.
    assert (La := all2_len _ _ _ Ha).
    destruct (Nat.ltb_spec i (length ps)) as [L | L].
    + rewrite nth_error_app1 in Hi by now rewrite rev_length.
      destruct (all2_nth _ _ _ _ _ (all2_rev _ _ _ Ha) Hi) as (x & E & Gx).
      cbn. unfold upr. destruct (Nat.ltb_spec i (length ps)); [| lia]. unfold inst. now rewrite E.
    + rewrite nth_error_app2 in Hi by (rewrite rev_length; lia). rewrite rev_length in Hi.
      rewrite lren_lren. rewrite lsub_lren.
      replace (lsub _ (s (i - length ps))) with (lren r (s (i - length ps))); [apply good_lren; auto |].
      rewrite lren_lsub_var. apply lsub_ext. intros j. unfold upr. ltb_cases; [lia |].
      rewrite La. replace (length args + j - length args) with j by lia. now rewrite inst_out.
  - intros G x A b B _ IHx _ IHb s Hs. cbn. eapply good_expand; [intros v Hv; apply ev_let; exact Hv |].
    rewrite lsub_lsub. apply IHb. intros [| i] C Hi.
    + injection Hi as <-. unfold ups. cbn. now apply IHx.
    + cbn in Hi. unfold ups. cbn. rewrite Nat.sub_0_r. rewrite lsub_lren, lsub_id; [auto |]. intros j. apply (inst_out [lsub s x]).
  - intros. exact Logic.I.
  - intros. cbn. auto.
Qed.

(** A simply typed grammar whose free variables are grammars evaluates to a
    grammar, in which fixed points have one variable each. *)
Theorem typed_evals_single G e : Forall (eq SGram) G -> has_sty G e SGram -> exists v g, evals e v /\ lgram v = Some g /\ single v.
Proof.
  intros HG He. destruct (proj1 typed_good _ _ _ He LVar) as (v & Hv & (g & Hg) & Sv).
  - intros i B Hi. apply nth_error_In in Hi. rewrite Forall_forall in HG. rewrite <- (HG _ Hi). exists (LVar i).
    split; [constructor |]. split; [eexists; reflexivity | exact Logic.I].
  - rewrite lsub_id in Hv by reflexivity. eauto.
Qed.
Theorem typed_evals G e : Forall (eq SGram) G -> has_sty G e SGram -> exists v g, evals e v /\ lgram v = Some g.
Proof. intros HG He. destruct (typed_evals_single G e HG He) as (v & g & H1 & H2 & _). eauto. Qed.
