(** * ReplaceFacts: typing and meaning of programs with replaced parts. *)
From Verif Require Export InferMore SpecReplace.

(** ** Closed grammars do not look at the environment *)
Definition same_below {A} (n : nat) (G G' : list A) : Prop := forall i, i < n -> nth_error G i = nth_error G' i.

Lemma same_below_unguard n G G' : same_below n G G' -> same_below n (unguard G) (unguard G').
Proof. intros H i Hi. unfold unguard. rewrite !nth_error_map, (H i Hi). reflexivity. Qed.
Lemma same_below_cons {A} n (x : A) G G' : same_below n G G' -> same_below (S n) (x :: G) (x :: G').
Proof. intros H [|i] Hi; cbn; [reflexivity|]. apply H. lia. Qed.

Theorem typed_weaken :
  (forall G g s, typed G g s -> forall n G', closed_below n g -> same_below n G G' -> typed G' g s) /\
  (forall G s gs s', typed_seq G s gs s' -> forall n G', closeds n gs -> same_below n G G' -> typed_seq G' s gs s') /\
  (forall G s gs s', typed_branches G s gs s' -> forall n G', closeds n gs -> same_below n G G' -> typed_branches G' s gs s').
Proof.
  apply typed_mutind; intros; rewrite ?closed_cat, ?closed_alt in *; try (constructor; fail).
  - constructor. rewrite <- (H0 i); [assumption|]. cbn in H. assumption.
  - destruct H1 as [H1 H1']. econstructor; eauto. eapply H0; eauto. apply same_below_unguard. assumption.
  - destruct H1 as [H1 H1']. econstructor; eauto.
  - econstructor; [|eassumption]. eapply H; [exact H0|]. apply same_below_cons. assumption.
  - destruct H1 as [H1 H1']. econstructor; eauto.
  - destruct H1 as [H1 H1']. econstructor; eauto.
Qed.
Corollary typed_any_env G G' g s : closed_below 0 g -> typed G g s -> typed G' g s.
Proof. intros Hc H. eapply (proj1 typed_weaken); eauto. intros i Hi. lia. Qed.

(** ** Acceptance *)
Definition hole_ok (R : nexpr -> nexpr -> Prop) : Prop :=
  forall x y, R x y -> forall fuel nm c g G s, ctx_wf c -> gram_of x = Some g -> typed G g s -> env_le (env_of c) G ->
  below (infer fuel nm c y) s.

Definition go_below (x : res (list texpr * ty) type_error) (s : stype) : Prop :=
  match x with Ok (_, t') => st_le (st_of t') s | OutOfFuel => True | _ => False end.

Theorem replaced_below R : hole_ok R ->
  (forall e e', replaced R e e' -> forall fuel nm c g G s, ctx_wf c -> gram_of e = Some g ->
     typed G g s -> env_le (env_of c) G -> below (infer fuel nm c e') s) /\
  (forall r r', replaced_rest R r r' -> forall fuel c gs G, ctx_wf c -> env_le (env_of c) G ->
     all_some (map (fun x => gram_of (snd x)) r) = Some gs -> forall s s' t, st_le (st_of t) s ->
     (typed_seq G s gs s' -> go_below (seq_go (fun e => infer fuel (e_name e) c e) t r') s') /\
     (typed_branches G s gs s' -> go_below (alt_go (fun e => infer fuel (e_name e) c e) t r') s')).
Proof.
  intros Hole. apply replaced_mutind.
  - intros x y Hxy fuel nm c g G s. apply (Hole x y Hxy).
  - intros e fuel nm c g G s Hwf Hg Ht HG. eapply infer_complete; eauto.
  - intros a a' f f' r r' _ IHf _ IHr fuel nm c g G s' Hwf Hg Hty HG.
    rewrite infer_cat. cbn in Hg. destruct (gram_of f) as [g1|] eqn:Eg; [|discriminate].
    destruct (all_some _) as [gs|] eqn:Egs; [|discriminate]. injection Hg as <-.
    inversion Hty as [| | |? ? ? t1 ? Hf Hnull Hrest| |]; subst.
    specialize (IHf fuel (e_name f') c g1 G t1 Hwf eq_refl Hf HG).
    destruct (infer fuel (e_name f') c f') as [f1| | |]; cbn in IHf; try exact IHf.
    destruct (nullable (get_type f1)) eqn:Hn.
    { apply Hnull. apply IHf. exact Hn. }
    assert (HG' : env_le (env_of (push_unguard c)) (unguard G)).
    { rewrite env_of_unguard. apply env_le_unguard. exact HG. }
    pose proof (proj1 (IHr fuel (push_unguard c) gs (unguard G) (ctx_wf_unguard c) HG' eq_refl t1 s' (get_type f1) IHf) Hrest) as Hs.
    destruct (seq_go _ _ _) as [[ts t']| | |]; auto.
  - intros a a' f f' r r' _ IHf _ IHr fuel nm c g G s' Hwf Hg Hty HG.
    rewrite infer_alt. cbn in Hg. destruct (gram_of f) as [g1|] eqn:Eg; [|discriminate].
    destruct (all_some _) as [gs|] eqn:Egs; [|discriminate]. injection Hg as <-.
    inversion Hty as [| | | |? ? ? t1 ? Hf Hrest|]; subst.
    specialize (IHf fuel (e_name f') c g1 G t1 Hwf eq_refl Hf HG).
    destruct (infer fuel (e_name f') c f') as [f1| | |]; cbn in IHf; try exact IHf.
    pose proof (proj2 (IHr fuel c gs G Hwf HG eq_refl t1 s' (get_type f1) IHf) Hrest) as Hs.
    destruct (alt_go _ _ _) as [[ts t']| | |]; auto.
  - intros a a' b b' ns ns' i i' _ IHi fuel nm c g G s' Hwf Hg Hty HG.
    rewrite infer_fix. cbn in Hg. destruct (gram_of i) as [g1|] eqn:Eg; [|discriminate].
    cbn in Hg. injection Hg as <-.
    inversion Hty as [| | | | |? ? ? s1 Hb Heq]; subst.
    assert (Hl' : below (fix_loop (fun last => infer fuel (merge_all [a_name b'; e_name i'; nm]) (push_var last c) i')
                  fuel ty_default) s').
    { apply fix_loop_below; [|apply st_of_default_le]. intros t Ht.
      assert (Hb' : below (infer fuel (merge_all [a_name b'; e_name i'; nm]) (push_var t c) i') s1).
      { eapply IHi; eauto; [apply ctx_wf_var; exact Hwf|]. rewrite env_of_var by exact Hwf.
        constructor; [split; [auto|exact Ht]|exact HG]. }
      destruct (infer _ _ _ i'); cbn in *; auto. eapply st_le_trans; [exact Hb'|apply Heq]. }
    destruct (fix_loop _ _ _); cbn in *; auto.
  - intros fuel c gs G Hwf HG Hgs s s' t Hle. cbn in Hgs. injection Hgs as <-.
    split; intros Hty; inversion Hty; subst; exact Hle.
  - intros p p' e e' l l' _ IHe _ IHl fuel c gs G Hwf HG Hgs s s' t Hle. cbn [map all_some snd] in Hgs.
    destruct (gram_of e) as [g|] eqn:Eg; [|discriminate].
    cbn in Hgs. destruct (all_some _) as [gs'|] eqn:Egs; [|discriminate]. injection Hgs as <-.
    split; intros Hty.
    + inversion Hty as [|? ? ? ? s1 ? Hg Hsep Hrest]; subst.
      specialize (IHe fuel (e_name e') c g G s1 Hwf eq_refl Hg HG). cbn [seq_go].
      destruct (infer fuel (e_name e') c e') as [r| | |]; cbn in IHe; auto.
      assert (Hsep' : separable (st_of t) (st_of (get_type r))) by (eapply separable_anti; eauto).
      rewrite (proj2 (cset_disjoint_spec _ _)); [|exact (proj2 Hsep')].
      assert (Hc : st_le (st_of (ty_cat t (get_type r))) (st_cat s s1)).
      { eapply st_le_trans; [apply st_of_cat|apply st_cat_mono; assumption]. }
      pose proof (proj1 (IHl fuel c gs' G Hwf HG eq_refl (st_cat s s1) s' (ty_cat t (get_type r)) Hc) Hrest) as Hs.
      destruct (seq_go _ _ l') as [[ts t']| | |]; auto.
    + inversion Hty as [|? ? ? ? s1 ? Hg Hsep Hrest]; subst.
      specialize (IHe fuel (e_name e') c g G s1 Hwf eq_refl Hg HG). cbn [alt_go].
      destruct (infer fuel (e_name e') c e') as [r| | |]; cbn in IHe; auto.
      assert (Hsep' : apart (st_of t) (st_of (get_type r))) by (eapply apart_anti; eauto).
      destruct (_ && _) eqn:Hnn.
      { exfalso. apply (proj1 Hsep'). apply andb_true_iff in Hnn. exact Hnn. }
      rewrite (proj2 (cset_disjoint_spec _ _)); [|exact (proj2 Hsep')].
      assert (Hc : st_le (st_of (ty_alt t (get_type r))) (st_alt s s1)).
      { eapply st_le_trans; [apply st_of_alt|apply st_alt_mono; assumption]. }
      pose proof (proj2 (IHl fuel c gs' G Hwf HG eq_refl (st_alt s s1) s' (ty_alt t (get_type r)) Hc) Hrest) as Hs.
      destruct (alt_go _ _ l') as [[ts t']| | |]; auto.
Qed.

(** A program [y] whose type promises at least as much as that of [x]. *)
Definition fits (x y : nexpr) : Prop :=
  exists rx ry, typecheck x = Ok rx /\ typecheck y = Ok ry /\
  (nullable (get_type ry) = true -> nullable (get_type rx) = true) /\
  incl (first_set (get_type ry)) (first_set (get_type rx)) /\
  incl (flast_set (get_type ry)) (flast_set (get_type rx)).

Lemma fits_hole : hole_ok fits.
Proof.
  intros x y (rx & ry & Ex & Ey & H1 & H2 & H3) fuel nm c g G s Hwf Hg Ht HG.
  destruct (infer_least x _ _ _ rx reach_empty Ex) as (gx & sx & Hgx & Htx & _ & Hleast).
  rewrite Hg in Hgx. injection Hgx as <-.
  assert (Hcx : closed_below 0 g) by exact (proj1 typed_closed _ _ _ Htx).
  specialize (Hleast s (typed_any_env G (env_of tctx_default) g s Hcx Ht)).
  destruct (typecheck_typed y ry Ey) as (gy & sy & Hgy & _ & Hty & Hsy).
  assert (Hcy : closed_below 0 gy) by exact (proj1 typed_closed _ _ _ Hty).
  pose proof (infer_complete y fuel nm c gy (env_of c) sy Hwf Hgy (typed_any_env [] (env_of c) gy sy Hcy Hty) (env_le_refl _)) as Hb.
  destruct (infer fuel nm c y); cbn in *; auto.
  eapply st_le_trans; [exact Hb|]. eapply st_le_trans; [apply Hsy|].
  eapply st_le_trans; [|exact Hleast]. split; [exact H1|]. split; [exact H2|exact H3].
Qed.

Theorem replaced_typecheck e e' r : typecheck e = Ok r -> replaced fits e e' -> fits e e'.
Proof.
  intros E Hr. destruct (infer_least e _ _ _ r reach_empty E) as (g & s & Hg & Ht & Hs & _).
  pose proof (proj1 (replaced_below fits fits_hole) e e' Hr (infer_fuel e') (e_name e') tctx_default g [] s ctx_wf_default Hg Ht) as Hb.
  specialize (Hb (env_le_refl _)). change (infer _ _ _ e') with (typecheck e') in Hb.
  pose proof (typecheck_total e') as [T1 T2].
  destruct (typecheck e') as [r'| | |] eqn:E'; cbn in Hb; try contradiction; try congruence.
  exists r, r'. split; [exact E|]. split; [exact E'|].
  assert (st_le (st_of (get_type r')) (st_of (get_type r))) as (A & B & C) by (eapply st_le_trans; [exact Hb|apply Hs]).
  auto.
Qed.

(** ** Meaning *)
Definition lenv_below (n : nat) (E F : list lang) : Prop := forall i, i < n -> lang_le (nth i E lang_empty) (nth i F lang_empty).
Lemma lenv_below_cons n L M E F : lang_le L M -> lenv_below n E F -> lenv_below (S n) (L :: E) (M :: F).
Proof. intros H1 H2 [|i] Hi; cbn; [exact H1|]. apply H2. lia. Qed.

Lemma lang_of_closed g : forall n E F, closed_below n g -> lenv_below n E F -> lang_le (lang_of E g) (lang_of F g).
Proof.
  induction g using gram_ind'; intros n E F Hc HE w Hw.
  - exact Hw.
  - exact Hw.
  - rewrite lang_of_cat in *. rewrite closed_cat in Hc. revert Hc w Hw.
    induction H as [|g l Hg Hl IH]; intros Hc w Hw; cbn in *; [exact Hw|].
    destruct Hc as [Hc1 Hc2]. revert w Hw. apply lang_cat_mono; [eapply Hg; eauto|intros w Hw; apply IH; auto].
  - rewrite lang_of_alt in *. rewrite closed_alt in Hc. revert Hc Hw.
    induction H as [|g l Hg Hl IH]; intros Hc Hw; cbn in *; [exact Hw|].
    destruct Hc as [Hc1 Hc2]. destruct Hw as [Hw|Hw]; [left; eapply Hg; eauto|right; auto].
  - cbn in *. destruct Hw as (k & Hk). exists k. revert w Hk.
    induction k as [|k IHk]; intros w Hn; cbn in *; [exact Hn|].
    revert Hn. eapply IHg; [exact Hc|]. apply lenv_below_cons; auto.
  - exact (HE i Hc w Hw).
Qed.
Corollary lang_of_any_env g E w : closed_below 0 g -> lang_of E g w <-> language g w.
Proof. intros Hc. split; apply (lang_of_closed g 0); auto; intros i Hi; lia. Qed.

(** [y] has at least the words of [x]; both are without free variables. *)
Definition more_words (x y : nexpr) : Prop :=
  exists gx gy, gram_of x = Some gx /\ gram_of y = Some gy /\ closed_below 0 gx /\ closed_below 0 gy /\
  forall w, language gx w -> language gy w.

Theorem replaced_words (R : nexpr -> nexpr -> Prop) : (forall x y, R x y -> more_words x y) ->
  (forall e e', replaced R e e' -> forall g, gram_of e = Some g ->
     exists g', gram_of e' = Some g' /\ forall env, lang_le (lang_of env g) (lang_of env g')) /\
  (forall r r', replaced_rest R r r' -> forall gs, all_some (map (fun x => gram_of (snd x)) r) = Some gs ->
     exists gs', all_some (map (fun x => gram_of (snd x)) r') = Some gs' /\
       (forall env, lang_le (lang_cats env gs) (lang_cats env gs')) /\
       (forall env, lang_le (lang_alts env gs) (lang_alts env gs'))).
Proof.
  intros HR. apply replaced_mutind.
  - intros x y Hxy g Hg. destruct (HR x y Hxy) as (gx & gy & Hx & Hy & Cx & Cy & Hw).
    rewrite Hg in Hx. injection Hx as <-. exists gy. split; [exact Hy|].
    intros env w H. apply lang_of_any_env; [exact Cy|]. apply Hw. apply (lang_of_any_env g env w Cx). exact H.
  - intros e g Hg. exists g. split; [exact Hg|]. intros env w H. exact H.
  - intros a a' f f' r r' _ IHf _ IHr g Hg. cbn in *.
    destruct (gram_of f) as [g1|]; [|discriminate]. destruct (all_some _) as [gs|] in Hg, IHr; [|discriminate].
    injection Hg as <-. destruct (IHf g1 eq_refl) as (g1' & -> & H1). destruct (IHr gs eq_refl) as (gs' & -> & H2 & _).
    exists (GCat (g1' :: gs')). split; [reflexivity|]. intros env. rewrite !lang_of_cat. cbn [lang_cats].
    apply lang_cat_mono; auto.
  - intros a a' f f' r r' _ IHf _ IHr g Hg. cbn in *.
    destruct (gram_of f) as [g1|]; [|discriminate]. destruct (all_some _) as [gs|] in Hg, IHr; [|discriminate].
    injection Hg as <-. destruct (IHf g1 eq_refl) as (g1' & -> & H1). destruct (IHr gs eq_refl) as (gs' & -> & _ & H2).
    exists (GAlt (g1' :: gs')). split; [reflexivity|]. intros env w. rewrite !lang_of_alt. cbn [lang_alts].
    intros [H|H]; [left; apply H1; exact H|right; apply H2; exact H].
  - intros a a' b b' ns ns' i i' _ IHi g Hg. cbn in *. destruct (gram_of i) as [g1|]; [|discriminate].
    injection Hg as <-. destruct (IHi g1 eq_refl) as (g1' & -> & H1). exists (GFix g1'). split; [reflexivity|].
    intros env w. rewrite !lang_of_fix. intros [n Hn]. exists n. revert w Hn.
    induction n as [|n IHn]; intros w Hn; [destruct Hn|]. rewrite approx_S in *.
    apply H1. revert Hn. apply lang_of_mono, lenv_le_cons; [exact IHn|apply lenv_le_refl].
  - intros gs Hgs. cbn in Hgs. injection Hgs as <-. exists []. repeat split; intros env w H; exact H.
  - intros p p' e e' l l' _ IHe _ IHl gs Hgs. cbn [map all_some snd] in *.
    destruct (gram_of e) as [g1|]; [|discriminate]. cbn in Hgs. destruct (all_some _) as [gs1|] in Hgs, IHl; [|discriminate].
    injection Hgs as <-. destruct (IHe g1 eq_refl) as (g1' & -> & H1). destruct (IHl gs1 eq_refl) as (gs' & Egs & H2 & H3).
    cbn. rewrite Egs. exists (g1' :: gs'). split; [reflexivity|]. split; intros env; cbn.
    + apply lang_cat_mono; auto.
    + intros w [H|H]; [left; apply H1; exact H|right; apply H3; exact H].
Qed.

Lemma replaced_flip (R S : nexpr -> nexpr -> Prop) : (forall x y, R x y -> S y x) ->
  (forall e e', replaced R e e' -> replaced S e' e) /\ (forall r r', replaced_rest R r r' -> replaced_rest S r' r).
Proof. intros H. apply replaced_mutind; intros; first [apply rep_same | solve [constructor; auto] | apply rep_cat; auto | apply rep_alt; auto | apply rep_fix; auto]. Qed.
Lemma replaced_weaken (R S : nexpr -> nexpr -> Prop) : (forall x y, R x y -> S x y) ->
  (forall e e', replaced R e e' -> replaced S e e') /\ (forall r r', replaced_rest R r r' -> replaced_rest S r r').
Proof. intros H. apply replaced_mutind; intros; first [apply rep_same | solve [constructor; auto] | apply rep_cat; auto | apply rep_alt; auto | apply rep_fix; auto]. Qed.

(** Equal types as values. *)
Lemma typecheck_ok_type e r : typecheck e = Ok r -> ty_ok (get_type r).
Proof.
  intros E. refine (proj1 (infer_ok e (infer_fuel e) (e_name e) tctx_default (lit_chars e) (incl_refl _) _ r E)). constructor.
Qed.
Lemma ty_antisym a b : ty_ok a -> ty_ok b -> st_le (st_of a) (st_of b) -> st_le (st_of b) (st_of a) -> a = b.
Proof.
  intros Ha Hb H1 H2. apply ty_eqb_eq. destruct (ty_eqb a b) eqn:E; [reflexivity|].
  pose proof (ty_size_lt a b Ha Hb H1 E). destruct (ty_eqb b a) eqn:E'.
  - apply ty_eqb_eq in E'. subst. lia.
  - pose proof (ty_size_lt b a Hb Ha H2 E'). lia.
Qed.
Lemma fits_antisym x y rx ry : fits x y -> fits y x -> typecheck x = Ok rx -> typecheck y = Ok ry -> get_type rx = get_type ry.
Proof.
  intros (rx1 & ry1 & Ex1 & Ey1 & H1) (ry2 & rx2 & Ey2 & Ex2 & H2) Ex Ey.
  assert (rx1 = rx) by congruence. assert (rx2 = rx) by congruence. assert (ry1 = ry) by congruence. assert (ry2 = ry) by congruence.
  subst. apply ty_antisym; eauto using typecheck_ok_type.
Qed.
