(** * InferMore: shape preservation, state threading, whole programs. *)
From Verif Require Export ExactFacts SpecKeep InferState.

Lemma reachable_wf c : reachable_ctx c -> ctx_wf c.
Proof.
  induction 1; [apply ctx_wf_default|apply ctx_wf_unguard|apply ctx_wf_var; assumption].
Qed.
Definition ctx_chars (c : tctx) : list char := flat_map (fun t => first_set t ++ flast_set t) (vars c).
Lemma reachable_ok c S : reachable_ctx c -> incl (ctx_chars c) S -> ctx_ok S c.
Proof.
  intros H Hi. unfold ctx_ok. apply Forall_forall. intros t Ht.
  assert (Hok : Forall ty_ok (vars c)).
  { clear - H. induction H; cbn; auto. constructor; [split|]; assumption. }
  rewrite Forall_forall in Hok. split; [auto|].
  split; intros x Hx; apply Hi; apply in_flat_map; exists t; split; auto; apply in_or_app; auto.
Qed.

(** The inference of any expression in any reachable context terminates. *)
Theorem infer_total e nm c : reachable_ctx c ->
  exists fuel x, x <> OutOfFuel /\ x <> Panic /\ forall fuel', fuel <= fuel' -> infer fuel' nm c e = x.
Proof.
  intros Hc. set (S := lit_chars e ++ ctx_chars c).
  exists (2 * length S + 2), (infer (2 * length S + 2) nm c e).
  assert (Ht : infer (2 * length S + 2) nm c e <> OutOfFuel).
  { apply (infer_terminates e _ _ _ S); auto.
    - apply reachable_wf; exact Hc.
    - apply reachable_ok; [exact Hc|]. apply incl_appr, incl_refl.
    - apply incl_appl, incl_refl. }
  split; [exact Ht|]. split; [apply infer_no_panic|].
  intros fuel' Hf. apply infer_fuel_mono; auto.
Qed.

Theorem typecheck_total e : typecheck e <> OutOfFuel /\ typecheck e <> Panic.
Proof.
  split; [|apply infer_no_panic]. unfold typecheck, infer_fuel.
  apply (infer_terminates e _ _ _ (lit_chars e)).
  - apply ctx_wf_default.
  - constructor.
  - apply incl_refl.
  - lia.
Qed.

(** Any fuel that is enough gives the same result. *)
Theorem typecheck_any_fuel e fuel : infer fuel (e_name e) tctx_default e <> OutOfFuel ->
  infer fuel (e_name e) tctx_default e = typecheck e.
Proof.
  intros H. unfold typecheck. destruct (Nat.le_ge_cases fuel (infer_fuel e)) as [Hle|Hle].
  - symmetry. apply infer_fuel_mono; auto.
  - apply infer_fuel_mono; auto. apply typecheck_total.
Qed.

Theorem infer_accepts e nm c : reachable_ctx c ->
  (exists fuel r, infer fuel nm c e = Ok r) <-> (exists g s, gram_of e = Some g /\ typed (env_of c) g s).
Proof.
  intros Hc. split.
  - intros (fuel & r & E). apply infer_sound in E as (g & s & Hg & _ & Ht & _); [eauto|apply reachable_wf; exact Hc].
  - intros (g & s & Hg & Ht). destruct (infer_total e nm c Hc) as (fuel & x & Hx & Hp & E).
    exists fuel. specialize (E fuel (le_n _)).
    pose proof (infer_complete e fuel nm c g (env_of c) s (reachable_wf _ Hc) Hg Ht (env_le_refl _)) as Hb.
    rewrite E in *. destruct x as [r| | |]; cbn in Hb; try contradiction; try congruence. eauto.
Qed.

Theorem typecheck_accepts e : (exists r, typecheck e = Ok r) <-> (exists g s, gram_of e = Some g /\ typed [] g s).
Proof.
  change [] with (env_of tctx_default). rewrite <- (infer_accepts e (e_name e) tctx_default reach_empty). split.
  - intros [r E]. exists (infer_fuel e), r. exact E.
  - intros (fuel & r & E). exists r. rewrite <- (typecheck_any_fuel e fuel); [exact E|congruence].
Qed.

Theorem infer_least e fuel nm c r : reachable_ctx c -> infer fuel nm c e = Ok r ->
  exists g s, gram_of e = Some g /\ typed (env_of c) g s /\ st_eq s (st_of (get_type r)) /\
              forall s', typed (env_of c) g s' -> st_le (st_of (get_type r)) s'.
Proof.
  intros Hc E. pose proof (reachable_wf _ Hc) as Hwf.
  destruct (infer_sound _ _ _ _ _ Hwf E) as (g & s & Hg & _ & Ht & Hs).
  exists g, s. split; [exact Hg|]. split; [exact Ht|]. split; [exact Hs|].
  intros s' Hs'. pose proof (infer_complete e fuel nm c g _ s' Hwf Hg Hs' (env_le_refl _)) as Hb.
  rewrite E in Hb. exact Hb.
Qed.

Theorem typecheck_describes e r g : typecheck e = Ok r -> gram_of e = Some g ->
  describes (st_of (get_type r)) (language g).
Proof.
  intros E Hg. apply infer_sound in E as (g' & s & Hg' & _ & Ht & Hs); [|apply ctx_wf_default].
  rewrite Hg in Hg'. injection Hg' as <-. eapply describes_le; [apply Hs|].
  apply (proj1 typed_describes _ _ _ Ht []). constructor.
Qed.

Theorem typecheck_typed e r : typecheck e = Ok r ->
  exists g s, gram_of e = Some g /\ gram_of_t r = g /\ typed [] g s /\ st_eq s (st_of (get_type r)).
Proof.
  intros E. apply infer_sound in E as (g & s & ? & ? & Ht & ?); [|apply ctx_wf_default].
  exists g, s. auto.
Qed.

Theorem typecheck_nullable e r g : typecheck e = Ok r -> gram_of e = Some g ->
  (nullable (get_type r) = true <-> language g []).
Proof.
  intros E Hg. split.
  - intros Hn. eapply infer_null_real; eauto. intros [|i] t Hi; discriminate.
  - intros Hw. apply (typecheck_describes e r g E Hg) in Hw. exact Hw.
Qed.

Theorem typecheck_exact e r g : typecheck e = Ok r -> gram_of e = Some g -> productive [] g ->
  real (get_type r) (language g).
Proof.
  intros E Hg Hp. destruct (typecheck_typed e r E) as (g' & s & Hg' & _ & Ht & _).
  rewrite Hg in Hg'. injection Hg' as <-.
  eapply infer_real; eauto; [constructor|]. intros [|i] t Hi; discriminate.
Qed.

(** ** Shape *)
Lemma seq_go_keeps inf l t ts t' :
  Forall (fun x => forall r, inf (snd x) = Ok r -> keeps (e_name (snd x)) (snd x) r) l ->
  seq_go inf t l = Ok (ts, t') -> Forall2 (fun x t => keeps (e_name (snd x)) (snd x) t) l ts.
Proof.
  intros H. revert t ts t'; induction H as [|[p e] l He Hl IH]; intros t ts t'; cbn.
  - intros E. injection E as <- _. constructor.
  - cbn in He. destruct (inf e) as [r| | |]; try discriminate. destruct (cset_disjoint _ _); [|discriminate].
    destruct (seq_go inf _ l) as [[ts1 t1]| | |] eqn:E1; try discriminate.
    intros E. injection E as <- _. constructor; [cbn; auto|eapply IH; exact E1].
Qed.
Lemma alt_go_keeps inf l t ts t' :
  Forall (fun x => forall r, inf (snd x) = Ok r -> keeps (e_name (snd x)) (snd x) r) l ->
  alt_go inf t l = Ok (ts, t') -> Forall2 (fun x t => keeps (e_name (snd x)) (snd x) t) l ts.
Proof.
  intros H. revert t ts t'; induction H as [|[p e] l He Hl IH]; intros t ts t'; cbn.
  - intros E. injection E as <- _. constructor.
  - cbn in He. destruct (inf e) as [r| | |]; try discriminate. destruct (_ && _); [discriminate|].
    destruct (cset_disjoint _ _); [|discriminate].
    destruct (alt_go inf _ l) as [[ts1 t1]| | |] eqn:E1; try discriminate.
    intros E. injection E as <- _. constructor; [cbn; auto|eapply IH; exact E1].
Qed.

Theorem infer_keeps e : forall fuel nm c r, infer fuel nm c e = Ok r -> keeps nm e r.
Proof.
  induction e using nexpr_ind_fix; intros fuel nm c t E; try discriminate.
  - cbn in E. injection E as <-. constructor.
  - cbn in E. injection E as <-. constructor.
  - rewrite infer_cat in E.
    destruct (infer fuel (e_name e) c e) as [f'| | |] eqn:Ef; try discriminate.
    destruct (nullable (get_type f')) eqn:Hn; [discriminate|].
    destruct (seq_go _ _ _) as [[ts t']| | |] eqn:Es; try discriminate. injection E as <-.
    constructor; [eauto|]. eapply seq_go_keeps; [|exact Es].
    eapply Forall_impl; [|eassumption]. cbn. eauto.
  - rewrite infer_alt in E.
    destruct (infer fuel (e_name e) c e) as [f'| | |] eqn:Ef; try discriminate.
    destruct (alt_go _ _ _) as [[ts t']| | |] eqn:Es; try discriminate. injection E as <-.
    constructor; [eauto|]. eapply alt_go_keeps; [|exact Es].
    eapply Forall_impl; [|eassumption]. cbn. eauto.
  - rewrite infer_fix in E.
    destruct (fix_loop _ _ _) as [r| | |] eqn:Ef; try discriminate. injection E as <-.
    constructor. apply fix_loop_ok in Ef. eauto.
  - rewrite infer_fix in E. destruct e; try discriminate. exfalso. eapply H; reflexivity.
  - cbn in E. destruct (get_variable_type c i); try discriminate. injection E as <-. constructor.
Qed.

(** ** The context is restored *)
Lemma infer_st_spec e : forall fuel nm c, infer_st fuel nm e c = (infer fuel nm c e, c).
Proof.
  induction e using nexpr_ind_fix; intros fuel nm c; try reflexivity.
  - cbn [infer_st]. rewrite IHe, infer_cat.
    destruct (infer fuel (e_name e) c e) as [f'| | |]; try reflexivity.
    destruct (nullable (get_type f')); [reflexivity|].
    match goal with |- context [with_unguard (?go r (get_type f')) c] => set (g := go) end.
    assert (Hg : forall l t c, Forall (fun x => forall fuel nm c, infer_st fuel nm (snd x) c = (infer fuel nm c (snd x), c)) l ->
                 g l t c = (seq_go (fun e => infer fuel (e_name e) c e) t l, c)).
    { clear. induction l as [|[p e] l IH]; intros t c Hl; cbn [g]; [reflexivity|].
      inversion Hl as [|? ? He Hl']; subst. cbn in He. rewrite He. cbn [seq_go].
      destruct (infer fuel (e_name e) c e) as [r| | |]; try reflexivity.
      destruct (cset_disjoint _ _); [|reflexivity]. fold g. rewrite IH by exact Hl'.
      destruct (seq_go _ _ l) as [[? ?]| | |]; reflexivity. }
    unfold with_unguard. rewrite Hg by assumption. cbn [push_unguard vars unguard_points tl].
    destruct c as [vs us]. cbn [vars unguard_points].
    destruct (seq_go _ _ r) as [[? ?]| | |]; reflexivity.
  - cbn [infer_st]. rewrite IHe, infer_alt.
    destruct (infer fuel (e_name e) c e) as [f'| | |]; try reflexivity.
    match goal with |- context [?go r (get_type f') c] => set (g := go) end.
    assert (Hg : forall l t c, Forall (fun x => forall fuel nm c, infer_st fuel nm (snd x) c = (infer fuel nm c (snd x), c)) l ->
                 g l t c = (alt_go (fun e => infer fuel (e_name e) c e) t l, c)).
    { clear. induction l as [|[p e] l IH]; intros t c Hl; cbn [g]; [reflexivity|].
      inversion Hl as [|? ? He Hl']; subst. cbn in He. rewrite He. cbn [alt_go].
      destruct (infer fuel (e_name e) c e) as [r| | |]; try reflexivity.
      destruct (_ && _); [reflexivity|].
      destruct (cset_disjoint _ _); [|reflexivity]. fold g. rewrite IH by exact Hl'.
      destruct (alt_go _ _ l) as [[? ?]| | |]; reflexivity. }
    rewrite Hg by assumption.
    destruct (alt_go _ _ r) as [[? ?]| | |]; reflexivity.
  - cbn [infer_st]. rewrite infer_fix.
    assert (Hl : forall n t, fix_loop_st (fun _ c => infer_st fuel (merge_all [a_name ai; e_name e; nm]) e c) n t c
                 = (fix_loop (fun last => infer fuel (merge_all [a_name ai; e_name e; nm]) (push_var last c) e) n t, c)).
    { induction n as [|n IHn]; intros t; [reflexivity|]. cbn [fix_loop_st fix_loop]. unfold with_variable_type.
      rewrite IHe. cbn [push_var vars unguard_points tl].
      replace (TCtx (vars c) (unguard_points c)) with c by (destruct c; reflexivity).
      destruct (infer _ _ _ e) as [r| | |]; try reflexivity.
      destruct (ty_eqb _ _); [reflexivity|]. apply IHn. }
    rewrite Hl. destruct (fix_loop _ _ _); reflexivity.
  - rewrite infer_fix. destruct e; try reflexivity. exfalso. eapply H; reflexivity.
  - cbn [infer_st infer]. destruct (get_variable_type c i); reflexivity.
Qed.
