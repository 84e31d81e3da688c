(** * ReprFacts: the table means the grammar. *)
From Verif Require Export GenFacts SpecSharing TreeFacts.

(** ** Shape of the table *)
Inductive repr (tab : table) : list nat -> nat -> texpr -> Prop :=
| repr_eps ctx id a t : def_of tab id = Some DEps -> repr tab ctx id (TEps a t)
| repr_lit ctx id a s t c : def_of tab id = Some (DLit s c) -> repr tab ctx id (TLit a s t)
| repr_cat ctx id a l t n p ids : def_of tab id = Some (DCat n p ids) -> Forall2 (repr tab ctx) ids l -> repr tab ctx id (TCat a l t)
| repr_alt ctx id a l t p ids c : def_of tab id = Some (DAlt p ids (first_arms 0 (map get_type l)) (find_nullable 0 (map get_type l)) (flat_map first_set (map get_type l)) c) ->
    Forall2 (repr tab ctx) ids l -> repr tab ctx id (TAlt a l t)
| repr_fix ctx id a i j : def_of tab id = Some (DFix (Some j)) -> repr tab (id :: ctx) j i -> repr tab ctx id (TFix a i)
| repr_var ctx id a i t f : nth_error ctx i = Some f -> def_of tab id = Some (DBox f) -> repr tab ctx id (TVar a i t).

Lemma Forall2_impl_in {A B} (P Q : A -> B -> Prop) l l' : Forall2 P l l' ->
  (forall x y, In y l' -> P x y -> Q x y) -> Forall2 Q l l'.
Proof.
  induction 1 as [|x y l l' H Hl IH]; intros HQ; constructor.
  - apply HQ; [left; reflexivity|exact H].
  - apply IH. intros. apply HQ; [right; assumption|assumption].
Qed.

Lemma repr_mono tab tab' e : (forall i x, def_of tab i = Some x -> x <> DFix None -> def_of tab' i = Some x) ->
  forall ctx id, repr tab ctx id e -> repr tab' ctx id e.
Proof.
  intros H. induction e using texpr_ind'; intros ctx id Hr; inversion Hr; subst.
  - constructor. apply H; [assumption|discriminate].
  - econstructor. apply H; [eassumption|discriminate].
  - econstructor; [apply H; [eassumption|discriminate]|]. eapply Forall2_impl_in; [eassumption|].
    intros x y Hy Hxy. rewrite Forall_forall in H0. apply H0; assumption.
  - econstructor; [apply H; [eassumption|discriminate]|]. eapply Forall2_impl_in; [eassumption|].
    intros x y Hy Hxy. rewrite Forall_forall in H0. apply H0; assumption.
  - econstructor; [apply H; [eassumption|discriminate]|]. auto.
  - econstructor; [eassumption|]. apply H; [assumption|discriminate].
Qed.

Lemma tfree_In i x l : In x l -> tfree i x ->
  (fix go l := match l with [] => False | x :: l' => tfree i x \/ go l' end) l.
Proof. induction l as [|y l IH]; [intros []|]; intros Hin Hf; destruct Hin as [->|Hin]; [left; exact Hf|right; exact (IH Hin Hf)]. Qed.

Lemma repr_ctx tab e : forall ctx ctx' id, repr tab ctx id e -> (forall n, tfree n e -> nth_error ctx n = nth_error ctx' n) ->
  repr tab ctx' id e.
Proof.
  induction e using texpr_ind'; intros ctx ctx' id Hr Hc; inversion Hr; subst.
  - constructor; assumption.
  - econstructor; eassumption.
  - econstructor; [eassumption|]. eapply Forall2_impl_in; [eassumption|].
    intros x y Hy Hxy. rewrite Forall_forall in H. eapply H; [exact Hy|exact Hxy|].
    intros q Hq. apply Hc. cbn. eapply tfree_In; eauto.
  - econstructor; [eassumption|]. eapply Forall2_impl_in; [eassumption|].
    intros x y Hy Hxy. rewrite Forall_forall in H. eapply H; [exact Hy|exact Hxy|].
    intros q Hq. apply Hc. cbn. eapply tfree_In; eauto.
  - econstructor; [eassumption|]. eapply IHe; [eassumption|]. intros [|q] Hq; [reflexivity|]. cbn. apply Hc. exact Hq.
  - econstructor; [|eassumption]. rewrite <- Hc; [assumption|reflexivity].
Qed.

Lemma repr_shapes tab ctx l : Forall (fun e => forall e' ctx id, repr tab ctx id e -> shape e = shape e' -> repr tab ctx id e') l ->
  forall ids terms, Forall2 (repr tab ctx) ids l -> map shape l = map shape terms -> Forall2 (repr tab ctx) ids terms.
Proof.
  induction 1 as [|x l Hx Hl IH]; intros ids terms Hf E; destruct terms as [|z terms]; cbn in E; try discriminate; inversion Hf; subst; constructor.
  - injection E as E1 E2. eauto.
  - injection E as E1 E2. eauto.
Qed.
Lemma repr_shape tab e : forall e' ctx id, repr tab ctx id e -> shape e = shape e' -> repr tab ctx id e'.
Proof.
  induction e using texpr_ind'; intros e' ctx id Hr Hs; destruct e'; cbn in Hs; try discriminate; inversion Hr; subst; injection Hs; intros; subst.
  - constructor; assumption.
  - econstructor; eassumption.
  - econstructor; [eassumption|]. eapply repr_shapes; eauto.
  - assert (Et : map get_type l = map get_type terms).
    { match goal with X : map shape l = map shape terms |- _ => apply (f_equal (map get_type)) in X; rewrite !map_map in X;
        rewrite (map_ext _ get_type shape_type), (map_ext _ get_type shape_type) in X; exact X end. }
    rewrite Et in *. econstructor; [eassumption|]. eapply repr_shapes; eauto.
  - econstructor; [eassumption|]. eauto.
  - econstructor; eassumption.
Qed.
Lemma shape_free e : forall e' n, shape e = shape e' -> tfree n e -> tfree n e'.
Proof.
  induction e using texpr_ind'; intros e' n Hs Hf; destruct e'; cbn in Hs; try discriminate; injection Hs; intros; subst; cbn in Hf |- *; try contradiction.
  - clear Hs. revert terms H1. induction H as [|x l Hx Hl IH]; intros [|y terms] E; cbn in E; try discriminate; [contradiction|].
    injection E as E1 E2. destruct Hf as [Hf|Hf]; [left; eauto|right; apply IH; auto].
  - clear Hs. revert terms H1. induction H as [|x l Hx Hl IH]; intros [|y terms] E; cbn in E; try discriminate; [contradiction|].
    injection E as E1 E2. destruct Hf as [Hf|Hf]; [left; eauto|right; apply IH; auto].
  - eauto.
  - exact Hf.
Qed.

(** ** What the steps put in the table *)
Definition keeps_fix_map (b b' : bst) : Prop :=
  fix_map b' = fix_map b /\ context b' = context b /\ exists l, data b' = data b ++ l.

Lemma new_type_name_inv cs prefix o b x ident b1 : new_type_name cs prefix o b = Some (x, ident, b1) ->
  x = length (data b) /\ exists nm, b1 = set_name_map nm b.
Proof.
  unfold new_type_name. destruct o as [n|].
  - destruct (camel cs (name_text n)); [|discriminate]. destruct (bump _ _) as [k m]. intros E. injection E as <- <- <-. eauto.
  - intros E. injection E as <- <- <-. split; [reflexivity|]. exists (name_map b). destruct b; reflexivity.
Qed.

Ltac pushed := cbn [data push_entry set_data set_name_map set_lit_map set_cat_map set_alt_map set_can_char set_var_map]; rewrite def_new; reflexivity.

Lemma gen_epsilon_def b m b' id : inv b m -> gen_epsilon b = Some (b', id) ->
  def_of (data b') id = Some DEps /\ keeps_fix_map b b'.
Proof.
  intros I. unfold gen_epsilon. rewrite (i_eps _ _ I). intros E. injection E as <- <-.
  split; [apply (def_new (data b) (Entry TnEpsilon DEps []))|]. split; [reflexivity|]. split; [reflexivity|]. eexists. reflexivity.
Qed.
Lemma gen_literal_def cs o s b m b' id : inv b m -> gen_literal cs o s b = Some (b', id) ->
  (exists c, def_of (data b') id = Some (DLit s c)) /\ keeps_fix_map b b'.
Proof.
  intros I. unfold gen_literal. destruct (map_get rstr_eqb s (lit_map b)) as [k|] eqn:Eg.
  - intros E. injection E as <- <-. apply map_get_In in Eg as (s' & Hin & E). apply rstr_eqb_eq in E. subst s'.
    split; [eapply i_lit; eauto|]. split; [reflexivity|]. split; [reflexivity|]. exists []. symmetry. apply app_nil_r.
  - destruct (new_type_name _ _ _ _) as [[[x ident] b1]|] eqn:En; [|discriminate].
    apply new_type_name_inv in En as (-> & nm & ->). intros E.
    destruct s as [|c [|c' s]]; injection E as <- <-;
      (split; [eexists; pushed|split; [reflexivity|split; [reflexivity|eexists; reflexivity]]]).
Qed.
Lemma gen_cat_def cs o names ids b m b' id : inv b m -> gen_cat cs o names ids b = Some (b', id) ->
  (exists n p, def_of (data b') id = Some (DCat n p ids)) /\ keeps_fix_map b b'.
Proof.
  intros I. unfold gen_cat. destruct (map_get nats_eqb ids (cat_map b)) as [k|] eqn:Eg.
  - intros E. injection E as <- <-. apply map_get_In in Eg as (s' & Hin & E). apply nats_eqb_eq in E. subst s'.
    split; [eapply i_cat; eauto|]. split; [reflexivity|]. split; [reflexivity|]. exists []. symmetry. apply app_nil_r.
  - destruct (new_type_name _ _ _ _) as [[[x ident] b1]|] eqn:En; [|discriminate].
    apply new_type_name_inv in En as (-> & nm & ->). destruct (ids_ok _ _); [|discriminate].
    destruct (name_parts _ _ _ _ _) as [parts|]; [|discriminate]. intros E. injection E as <- <-.
    split; [eexists _, _; pushed|split; [reflexivity|split; [reflexivity|eexists; reflexivity]]].
Qed.
Lemma flat_map_map {A B C} (f : A -> B) (g : B -> list C) l : flat_map g (map f l) = flat_map (fun x => g (f x)) l.
Proof. induction l as [|x l IH]; cbn; [reflexivity|]. rewrite IH. reflexivity. Qed.
Lemma gen_alt_def cs o names tys ids b m b' id : inv b m -> tys = map (tau m) ids -> gen_alt cs o names tys ids b = Some (b', id) ->
  (exists p c, def_of (data b') id = Some (DAlt p ids (first_arms 0 tys) (find_nullable 0 tys) (flat_map first_set tys) c)) /\ keeps_fix_map b b'.
Proof.
  intros I ->. unfold gen_alt. destruct (map_get nats_eqb ids (alt_map b)) as [k|] eqn:Eg.
  - intros E. injection E as <- <-. apply map_get_In in Eg as (s' & Hin & E). apply nats_eqb_eq in E. subst s'.
    split; [|split; [reflexivity|]; split; [reflexivity|]; exists []; symmetry; apply app_nil_r].
    destruct (i_alt _ _ I _ _ Hin) as (p & f & n & a & c & Hd). exists p, c. rewrite Hd.
    destruct (i_ok _ _ I k (def_of_lt _ _ _ Hd)) as [Hc|[Hg _]]; [rewrite (i_ctx _ _ I _ Hc) in Hd; discriminate|].
    unfold flat_ok in Hg. rewrite Hd in Hg. destruct Hg as (_ & _ & -> & -> & ->). rewrite flat_map_map. reflexivity.
  - destruct (new_type_name _ _ _ _) as [[[x ident] b1]|] eqn:En; [|discriminate].
    apply new_type_name_inv in En as (-> & nm & ->). destruct (ids_ok _ _); [|discriminate].
    destruct (name_parts _ _ _ _ _) as [parts|]; [|discriminate]. intros E. injection E as <- <-.
    destruct (forallb _ ids);
    (split; [eexists _, _; pushed|split; [reflexivity|split; [reflexivity|eexists; reflexivity]]]).
Qed.
Lemma gen_variable_def i b m b' id : inv b m -> gen_variable i b = Some (b', id) ->
  (exists f, nth_error (context b) i = Some f /\ def_of (data b') id = Some (DBox f)) /\ keeps_fix_map b b'.
Proof.
  intros I. unfold gen_variable. destruct (nth_error (context b) i) as [f|] eqn:Ef; [|discriminate].
  destruct (map_get Nat.eqb f (var_map b)) as [k|] eqn:Eg.
  - intros E. injection E as <- <-. apply map_get_In in Eg as (s' & Hin & E). apply Nat.eqb_eq in E. subst s'.
    split; [exists f; split; [reflexivity|eapply i_var; eauto]|]. split; [reflexivity|]. split; [reflexivity|]. exists []. symmetry. apply app_nil_r.
  - destruct (nth_error (data b) f) as [fe|]; [|discriminate]. intros E. injection E as <- <-.
    split; [exists f; split; [reflexivity|pushed]|split; [reflexivity|split; [reflexivity|eexists; reflexivity]]].
Qed.

Section Repr.
  Variable cs : casing.
  Variable root : texpr.
  Hypothesis Hshare : sharing_ok root.

  Definition tracked (b : bst) (B : list texpr) (ctx : list nat) : Prop :=
    Forall2 (fun i id => In (i, id) (fix_map b)) B ctx.
  Record rinv (b : bst) (B : list texpr) : Prop := Rinv {
    r_ctx : tracked b B (context b);
    r_done : forall i id, In (i, id) (fix_map b) -> In id (context b) \/
      exists B0 a0 ctx0, inside root B0 (TFix a0 i) /\ tracked b B0 ctx0 /\ repr (data b) ctx0 id (TFix a0 i);
    r_key : forall i id i' id', In (i, id) (fix_map b) -> In (i', id') (fix_map b) -> texpr_eqb i i' = true -> id = id';
    r_id : forall i i' id, In (i, id) (fix_map b) -> In (i', id) (fix_map b) -> i = i' }.

  Lemma def_ext d l i x : def_of d i = Some x -> def_of (d ++ l) i = Some x.
  Proof. intros H. rewrite def_app; [exact H|]. eapply def_of_lt; eauto. Qed.

  Lemma rinv_keep b b' B : rinv b B -> keeps_fix_map b b' -> rinv b' B.
  Proof.
    intros [R1 R2 R3 R4] (Hf & Hc & l & Hd). split.
    - unfold tracked. rewrite Hf, Hc. exact R1.
    - intros i id Hin. rewrite Hf in Hin. rewrite Hc. destruct (R2 i id Hin) as [H|(B0 & a0 & c0 & H1 & H2 & H3)]; [left; exact H|].
      right. exists B0, a0, c0. split; [exact H1|]. split; [unfold tracked; rewrite Hf; exact H2|].
      eapply repr_mono; [|exact H3]. intros k x Hx _. rewrite Hd. apply def_ext. exact Hx.
    - rewrite Hf. exact R3.
    - rewrite Hf. exact R4.
  Qed.

  Definition rspec (e : texpr) : Prop := forall G b m B, inv b m -> map snd G = map (tau m) (context b) -> wt G e ->
    names_ok cs e -> (forall f, In f (context b) -> tsize e < sz m f) -> rinv b B -> inside root B e ->
    forall b' id, gen cs e b = Some (b', id) ->
    rinv b' B /\ repr (data b') (context b) id e /\ incl (fix_map b) (fix_map b').

  Lemma gen_list_repr l : Forall rspec l -> forall b m B, inv b m ->
    Forall (fun e => exists G, map snd G = map (tau m) (context b) /\ wt G e) l -> Forall (names_ok cs) l ->
    (forall e f, In e l -> In f (context b) -> tsize e < sz m f) -> rinv b B -> Forall (inside root B) l ->
    forall b' ids, gen_list (gen cs) l b = Some (b', ids) ->
    rinv b' B /\ Forall2 (repr (data b') (context b)) ids l /\ incl (fix_map b) (fix_map b').
  Proof.
    induction 1 as [|e l He Hl IH]; intros b m B I Hw Hn Hs R Hin b' ids E; cbn [gen_list] in E.
    - injection E as <- <-. split; [exact R|]. split; [constructor|apply incl_refl].
    - inversion Hw as [|? ? (G & HG & Hwt) Hw']; subst. inversion Hn as [|? ? Hne Hn']; subst. inversion Hin as [|? ? Hi Hin']; subst.
      assert (Hse : forall f, In f (context b) -> tsize e < sz m f) by (intros f Hf; apply Hs; [left; reflexivity|exact Hf]).
      destruct (gen_spec cs e G b m I HG Hwt Hne Hse) as (b1 & id & m1 & E1 & R1).
      rewrite E1 in E. destruct (gen_list (gen cs) l b1) as [[b2 ids2]|] eqn:E2; [|discriminate]. injection E as <- <-.
      destruct (He G b m B I HG Hwt Hne Hse R Hi b1 id E1) as (Ra & Rb & Rc).
      destruct R1 as [I1 D1 [k1 M1] L1 T1 Z1 C1 N1].
      assert (Hw1 : Forall (fun e => exists G, map snd G = map (tau m1) (context b1) /\ wt G e) l).
      { eapply Forall_impl; [|exact Hw']. intros x (G' & HG' & Hx). exists G'. split; [|exact Hx].
        rewrite C1, HG', M1. symmetry. apply ctx_tau_app. exact I. }
      assert (Hs1 : forall e f, In e l -> In f (context b1) -> tsize e < sz m1 f).
      { intros x f Hx Hf. rewrite C1 in Hf. rewrite M1, sz_app by (eapply ctx_lt; eauto). apply Hs; [right; exact Hx|exact Hf]. }
      destruct (IH b1 m1 B I1 Hw1 Hn' Hs1 Ra Hin' b2 ids2 E2) as (Rd & Re & Rf).
      destruct (gen_list_spec cs l) with (b := b1) (m := m1) as (b2' & ids2' & m2 & E2' & R2); auto.
      { rewrite Forall_forall. intros x _. apply gen_spec. }
      rewrite E2 in E2'. injection E2' as <- <-. destruct (g_data _ _ _ _ _ _ _ R2) as [l2 D2].
      split; [exact Rd|]. split; [|eapply incl_tran; eauto]. constructor.
      + eapply repr_mono; [|exact Rb]. intros k x Hx _. rewrite D2. apply def_ext. exact Hx.
      + rewrite C1 in Re. exact Re.
  Qed.

  Lemma tracked_nth b B ctx n : tracked b B ctx -> forall x, nth_error B n = Some x ->
    exists f, nth_error ctx n = Some f /\ In (x, f) (fix_map b).
  Proof.
    intros H. revert n. induction H as [|y f B ctx Hy HB IH]; intros [|n] x Hx; cbn in *; try discriminate.
    - injection Hx as ->. eauto.
    - auto.
  Qed.
  Lemma tracked_incl b b' B ctx : incl (fix_map b) (fix_map b') -> tracked b B ctx -> tracked b' B ctx.
  Proof. intros H. unfold tracked. induction 1; constructor; auto. Qed.

  Theorem gen_repr e : rspec e.
  Proof.
    induction e using texpr_ind'; intros G b m B I HG Hwt Hn Hs R Hin b' id E; inversion Hwt; subst.
    - cbn [gen] in E. destruct (gen_epsilon_def b m b' id I E) as [Hd Hk]. split; [eapply rinv_keep; eauto|].
      split; [constructor; exact Hd|rewrite (proj1 Hk); apply incl_refl].
    - cbn [gen] in E. destruct (gen_literal_def cs _ _ b m b' id I E) as [[c Hd] Hk]. split; [eapply rinv_keep; eauto|].
      split; [econstructor; exact Hd|rewrite (proj1 Hk); apply incl_refl].
    - rewrite gen_cat_eq in E. destruct (gen_list (gen cs) (e :: es) b) as [[b1 ids]|] eqn:El; [|discriminate].
      assert (Hn2 : Forall (names_ok cs) (e :: es)).
      { apply names_ok_list. unfold names_ok in Hn. cbn [t_names] in Hn. apply Forall_app in Hn. apply Hn. }
      assert (Hw : Forall (fun x => exists G, map snd G = map (tau m) (context b) /\ wt G x) (e :: es)).
      { constructor; [exists G; auto|]. apply wt_seq_all in H6. eapply Forall_impl; [|exact H6].
        intros y Hy. exists (ung G). rewrite ung_snd. auto. }
      assert (Hsz : forall x f, In x (e :: es) -> In f (context b) -> tsize x < sz m f).
      { intros y f Hy Hf. specialize (Hs f Hf). cbn [tsize] in Hs. pose proof (tsize_list _ _ Hy). lia. }
      assert (Hins : Forall (inside root B) (e :: es)) by (rewrite Forall_forall; intros x Hx; eapply inside_cat; eauto).
      destruct (gen_list_repr _ H b m B I Hw Hn2 Hsz R Hins b1 ids El) as (Ra & Rb & Rc).
      destruct (gen_list_spec cs (e :: es)) with (b := b) (m := m) as (b1' & ids' & m1 & El' & R1); auto.
      { rewrite Forall_forall. intros x _. apply gen_spec. }
      rewrite El in El'. injection El' as <- <-.
      destruct (gen_cat_def cs _ _ ids b1 m1 b' id (g_inv _ _ _ _ _ _ _ R1) E) as [(n & p & Hd) Hk].
      split; [eapply rinv_keep; eauto|]. split; [|rewrite (proj1 Hk); exact Rc].
      econstructor; [exact Hd|]. eapply Forall2_impl_in; [exact Rb|]. intros x y _ Hxy.
      destruct Hk as (_ & _ & l2 & D2). eapply repr_mono; [|exact Hxy]. intros k z Hz _. rewrite D2. apply def_ext. exact Hz.
    - rewrite gen_alt_eq in E. destruct (gen_list (gen cs) (e :: es) b) as [[b1 ids]|] eqn:El; [|discriminate].
      assert (Hn2 : Forall (names_ok cs) (e :: es)).
      { apply names_ok_list. unfold names_ok in Hn. cbn [t_names] in Hn. apply Forall_app in Hn. apply Hn. }
      assert (Hw : Forall (fun x => exists G, map snd G = map (tau m) (context b) /\ wt G x) (e :: es)).
      { constructor; [exists G; auto|]. apply wt_branches_all in H5. eapply Forall_impl; [|exact H5].
        intros y Hy. exists G. auto. }
      assert (Hsz : forall x f, In x (e :: es) -> In f (context b) -> tsize x < sz m f).
      { intros y f Hy Hf. specialize (Hs f Hf). cbn [tsize] in Hs. pose proof (tsize_list _ _ Hy). lia. }
      assert (Hins : Forall (inside root B) (e :: es)) by (rewrite Forall_forall; intros x Hx; eapply inside_alt; eauto).
      destruct (gen_list_repr _ H b m B I Hw Hn2 Hsz R Hins b1 ids El) as (Ra & Rb & Rc).
      destruct (gen_list_spec cs (e :: es)) with (b := b) (m := m) as (b1' & ids' & m1 & El' & R1); auto.
      { rewrite Forall_forall. intros x _. apply gen_spec. }
      rewrite El in El'. injection El' as <- <-.
      destruct (gen_alt_def cs _ _ _ ids b1 m1 b' id (g_inv _ _ _ _ _ _ _ R1) (eq_sym (g_tau _ _ _ _ _ _ _ R1)) E) as [(p & c & Hd) Hk].
      split; [eapply rinv_keep; eauto|]. split; [|rewrite (proj1 Hk); exact Rc].
      econstructor; [exact Hd|]. eapply Forall2_impl_in; [exact Rb|]. intros x y _ Hxy.
      destruct Hk as (_ & _ & l2 & D2). eapply repr_mono; [|exact Hxy]. intros k z Hz _. rewrite D2. apply def_ext. exact Hz.
    - cbn [gen] in E. destruct (map_get texpr_eqb e (fix_map b)) as [k|] eqn:Eg.
      + injection E as <- <-. split; [exact R|]. split; [|apply incl_refl].
        apply map_get_In in Eg as (e' & Hk & Eeq).
        destruct (i_fix _ _ I _ _ Hk) as (_ & Hsz & _).
        destruct (r_done _ _ R _ _ Hk) as [Hc|(B0 & a0 & ctx0 & Hi0 & Ht0 & Hr0)].
        { exfalso. specialize (Hs k Hc). cbn [tsize] in Hs. rewrite Hsz, (texpr_eqb_size _ _ Eeq) in Hs. lia. }
        pose proof (texpr_eqb_shape _ _ Eeq) as Hsh.
        apply repr_ctx with (ctx := ctx0).
        * eapply repr_shape; [exact Hr0|]. cbn. rewrite Hsh. reflexivity.
        * intros n Hf. cbn [tfree] in Hf.
          destruct (Hshare B a e B0 a0 e' Hin Hi0 Eeq n Hf) as (x & x' & Hx & Hx' & Hxx).
          destruct (tracked_nth _ _ _ _ (r_ctx _ _ R) _ Hx) as (f & Hf1 & Hf2).
          destruct (tracked_nth _ _ _ _ Ht0 _ Hx') as (f' & Hf1' & Hf2').
          rewrite Hf1, Hf1'. f_equal. symmetry. eapply (r_key _ _ R); eauto.
      + destruct (new_type_name _ _ _ _) as [[[x ident] b1]|] eqn:En; [|discriminate].
        apply new_type_name_inv in En as (-> & nm & ->). cbv zeta in E.
        assert (Hlen : length m = length (data b)) by apply I.
        pose proof (inv_hole b m ident e nm _ _ I eq_refl eq_refl) as I1. cbv zeta in I1.
        set (b1 := Bst _ _ _ _ _ _ _ _ _ _) in I1.
        assert (Eb : set_context (length (data b) :: context (push_entry (Entry (TnIdent ident) (DFix None) []) (set_fix_map ((e, length (data b)) :: fix_map (set_name_map nm b)) (set_name_map nm b))))
                (push_entry (Entry (TnIdent ident) (DFix None) []) (set_fix_map ((e, length (data b)) :: fix_map (set_name_map nm b)) (set_name_map nm b))) = b1).
        { pose proof (i_eps _ _ I) as He. unfold b1. destruct b; cbn in *. subst. reflexivity. }
        rewrite Eb in E. clear Eb.
        assert (P1 : map snd ((false, get_type e) :: G) = map (tau (m ++ [(get_type e, S (tsize e))])) (context b1)).
        { cbn [map snd context b1]. rewrite HG. rewrite (ctx_tau_app b m _ I). rewrite <- Hlen, tau_new. reflexivity. }
        assert (P2 : names_ok cs e).
        { unfold names_ok in *. cbn [t_names] in Hn. apply Forall_app in Hn. apply Hn. }
        assert (P3 : forall f, In f (context b1) -> tsize e < sz (m ++ [(get_type e, S (tsize e))]) f).
        { intros f [<-|Hf]; [rewrite <- Hlen, sz_new; lia|].
          specialize (Hs f Hf). cbn [tsize] in Hs. rewrite sz_app by (eapply ctx_lt; eauto). lia. }
        match goal with H : wt (_ :: G) e |- _ => rename H into Hwe end.
        destruct (gen_spec cs e ((false, get_type e) :: G) b1 _ I1 P1 Hwe P2 P3) as (b4 & j & m4 & E4 & R4).
        rewrite E4 in E.
        assert (Rb1 : rinv b1 (e :: B)).
        { destruct R as [Q1 Q2 Q3 Q4]. split; cbn [fix_map context data b1].
          - constructor; [left; reflexivity|]. unfold tracked in Q1. eapply Forall2_impl_in; [exact Q1|]. intros; right; assumption.
          - intros i k [Ek|Hk].
            + injection Ek as <- <-. left. left. reflexivity.
            + destruct (Q2 i k Hk) as [H|(B0 & a0 & c0 & X1 & X2 & X3)]; [left; right; exact H|].
              right. exists B0, a0, c0. split; [exact X1|]. split.
              * unfold tracked in *. eapply Forall2_impl_in; [exact X2|]. intros; right; assumption.
              * eapply repr_mono; [|exact X3]. intros q z Hz _. apply def_ext. exact Hz.
          - intros i k i' k' [E1|H1] [E2|H2] Heq.
            + congruence.
            + injection E1 as <- <-. rewrite (map_get_None _ _ _ Eg _ _ H2) in Heq. discriminate.
            + injection E2 as <- <-. rewrite texpr_eqb_sym in Heq. rewrite (map_get_None _ _ _ Eg _ _ H1) in Heq. discriminate.
            + eapply Q3; eauto.
          - intros i i' k [E1|H1] [E2|H2].
            + congruence.
            + injection E1 as <- <-. destruct (i_fix _ _ I _ _ H2) as (_ & _ & o & Ho). apply def_of_lt in Ho. lia.
            + injection E2 as <- <-. destruct (i_fix _ _ I _ _ H1) as (_ & _ & o & Ho). apply def_of_lt in Ho. lia.
            + eapply Q4; eauto. }
        assert (Hin1 : inside root (e :: B) e) by (eapply inside_fix; eauto).
        destruct (IHe _ b1 _ (e :: B) I1 P1 Hwe P2 P3 Rb1 Hin1 b4 j E4) as (Ra & Rb & Rc).
        cbn [data set_context] in E. destruct (nth_error (data b4) j) as [ej|] eqn:Ej; [|discriminate].
        destruct (Nat.ltb _ _) eqn:Elt; [|discriminate]. injection E as <- <-.
        fold (fill (length (data b)) j (data b4)).
        assert (C4 := g_ctx _ _ _ _ _ _ _ R4). cbn [context b1] in C4. cbn [context b1] in Rb.
        destruct (g_data _ _ _ _ _ _ _ R4) as [l4 D4]. cbn [data b1] in D4.
        assert (Hhole : nth_error (data b4) (length (data b)) = Some (Entry (TnIdent ident) (DFix None) [])).
        { rewrite D4, <- app_assoc, nth_error_app2 by lia. rewrite Nat.sub_diag. reflexivity. }
        assert (Hmono : forall i z, def_of (data b4) i = Some z -> z <> DFix None -> def_of (fill (length (data b)) j (data b4)) i = Some z).
        { intros i z Hz Hne. unfold def_of, fill. rewrite update_nth. destruct (Nat.eqb_spec i (length (data b))) as [->|Hd]; [|exact Hz].
          exfalso. unfold def_of in Hz. rewrite Hhole in Hz. cbn in Hz. congruence. }
        assert (Hfilled : def_of (fill (length (data b)) j (data b4)) (length (data b)) = Some (DFix (Some j))).
        { unfold def_of, fill. rewrite update_nth, Nat.eqb_refl, Hhole. reflexivity. }
        assert (Hrepr : forall a, repr (fill (length (data b)) j (data b4)) (context b) (length (data b)) (TFix a e)).
        { intros a'. econstructor; [exact Hfilled|]. eapply repr_mono; [|exact Rb]. exact Hmono. }
        assert (Hincl : incl (fix_map b) (fix_map b4)).
        { intros y Hy. apply Rc. right. exact Hy. }
        cbn [data set_data fix_map set_context].
        split; [|split; [apply Hrepr|exact Hincl]].
        destruct Ra as [Q1 Q2 Q3 Q4]. split; cbn [data set_data fix_map set_context context].
        * rewrite C4. cbn [tl]. apply tracked_incl with (b := b); [exact Hincl|apply R].
        * intros i k Hk. destruct (Q2 i k Hk) as [Hc|(B0 & a0 & c0 & X1 & X2 & X3)].
          -- rewrite C4 in Hc |- *. cbn [tl]. destruct Hc as [<-|Hc]; [|left; exact Hc].
             right. exists B, a, (context b).
             assert (i = e) as ->. { eapply Q4; [exact Hk|]. apply Rc. left. reflexivity. }
             split; [exact Hin|]. split; [|apply Hrepr]. apply tracked_incl with (b := b); [exact Hincl|apply R].
          -- right. exists B0, a0, c0. split; [exact X1|]. split; [exact X2|]. eapply repr_mono; [|exact X3]. exact Hmono.
        * exact Q3.
        * exact Q4.
    - cbn [gen] in E. destruct (gen_variable_def i b m b' id I E) as [(f & Hf & Hd) Hk]. split; [eapply rinv_keep; eauto|].
      split; [econstructor; eauto|rewrite (proj1 Hk); apply incl_refl].
  Qed.

  Corollary generate_repr b id : wt [] root -> names_ok cs root -> generate cs root = Some (b, id) -> repr (data b) [] id root.
  Proof.
    intros Hwt Hn E. apply (gen_repr root [] bst_default [] []) with (3 := Hwt) in E; auto.
    - apply E.
    - apply inv_default.
    - cbn. contradiction.
    - split; cbn; try contradiction. constructor.
    - constructor.
  Qed.
End Repr.

(** ** Meaning *)
Fixpoint tree_size (t : tree) : nat :=
  match t with
  | NEps | NLit _ => 1
  | NCat ts => S (list_sum (map tree_size ts))
  | NAlt _ t | NBox t => S (tree_size t)
  end.

Lemma trees_small g : forall N E F, (forall n t, tree_size t < N -> nth n E treeset_empty t -> nth n F treeset_empty t) ->
  forall t, tree_size t <= N -> trees_of E g t -> trees_of F g t.
Proof.
  induction g using gram_ind'; intros N E F HEF t Ht Hg.
  - exact Hg.
  - exact Hg.
  - rewrite trees_of_cat in *. destruct Hg as (ts & -> & Hg). exists ts. split; [reflexivity|]. cbn [tree_size] in Ht.
    revert ts Ht Hg. induction H as [|g l Hg Hl IH]; intros ts Ht Hc; cbn in *; [exact Hc|].
    destruct Hc as (t & ts' & -> & H1 & H2). exists t, ts'. split; [reflexivity|]. cbn in Ht.
    split; [|apply IH; [unfold list_sum; lia|exact H2]]. eapply Hg; [exact HEF| |exact H1]. lia.
  - rewrite trees_of_alt in *. revert Hg. generalize 0 as k. induction H as [|g l Hg Hl IH]; intros k Hc; cbn in *; [exact Hc|].
    destruct Hc as [(t' & -> & H1)|H1]; [left; exists t'; split; [reflexivity|]|right; auto].
    cbn in Ht. eapply Hg; [exact HEF| |exact H1]. lia.
  - rewrite trees_of_fix in *. destruct Hg as [n Hn]. exists n. revert t Ht Hn.
    induction n as [|n IHn]; intros t Ht Hn; [destruct Hn|]. rewrite tapprox_S in *.
    eapply IHg; [|exact Ht|exact Hn]. intros [|k] t' Ht' Hk; cbn in *; [apply IHn; [lia|exact Hk]|auto].
  - cbn in *. destruct Hg as (t' & -> & Hg). exists t'. split; [reflexivity|]. apply HEF; [cbn in Ht; lia|exact Hg].
Qed.

(** A set of trees that solves the equation of a fixed point is the fixed point. *)
Theorem trees_fix_unique env g (D : treeset) : (forall t, D t <-> trees_of (D :: env) g t) ->
  forall t, trees_of env (GFix g) t <-> D t.
Proof.
  intros HD t. split.
  - intros [n Hn]. change (tapprox env g n t) in Hn. revert t Hn. induction n as [|n IHn]; intros t Hn; [destruct Hn|].
    rewrite tapprox_S in Hn. apply HD. revert Hn. apply trees_of_mono, trenv_le_cons; [exact IHn|apply trenv_le_refl].
  - remember (tree_size t) as N eqn:EN. revert t EN. induction N as [N IH] using lt_wf_ind. intros t EN Ht.
    apply trees_fix_unfold. apply HD in Ht. eapply trees_small; [|apply le_n|exact Ht].
    intros [|n] t' Hlt Ht'; cbn in *; [|exact Ht']. eapply IH; [|reflexivity|exact Ht']. lia.
Qed.

Lemma trees_of_ext g E F : (forall n t, nth n E treeset_empty t <-> nth n F treeset_empty t) ->
  forall t, trees_of E g t <-> trees_of F g t.
Proof. intros H t. split; apply trees_of_mono; intros n u; apply H. Qed.

Definition env_derives (tab : table) (ctx : list nat) (env : list treeset) : Prop :=
  forall n f, nth_error ctx n = Some f -> forall t, nth n env treeset_empty t <-> derives tab f t.

Theorem repr_trees tab e : forall ctx id env, repr tab ctx id e -> env_derives tab ctx env ->
  forall t, trees_of env (gram_of_t e) t <-> derives tab id t.
Proof.
  induction e using texpr_ind'; intros ctx id env Hr He w; inversion Hr; subst; cbn [gram_of_t].
  - cbn. split; [intros ->; constructor; assumption|]. intros Hd. inversion Hd; try congruence.
  - cbn. split; [intros ->; econstructor; eassumption|]. intros Hd. inversion Hd; congruence.
  - assert (Hcat : forall ts, trees_cats env (map gram_of_t l) ts <-> derives_seq tab ids ts).
    { match goal with F : Forall2 _ ids l |- _ => revert H; clear -F He; induction F as [|x y ids l Hx Hl IH] end; intros H ts; cbn.
      - split; [intros ->; constructor|]. intros Hd. inversion Hd. reflexivity.
      - inversion H as [|? ? Hy Hl']; subst. split.
        + intros (t' & ts' & -> & H1 & H2). constructor; [eapply Hy; eauto|]. apply IH; assumption.
        + intros Hd. inversion Hd; subst. eexists _, _. split; [reflexivity|]. split; [eapply Hy; eauto|]. apply IH; assumption. }
    rewrite trees_of_cat. split.
    + intros (ts & -> & Hts). econstructor; [eassumption|]. apply Hcat. exact Hts.
    + intros Hd. inversion Hd; try congruence. subst. eexists. split; [reflexivity|]. apply Hcat. congruence.
  - assert (Halt : forall k t, trees_alts env k (map gram_of_t l) t <-> exists i j t', t = NAlt (k + i) t' /\ nth_error ids i = Some j /\ derives tab j t').
    { match goal with F : Forall2 _ ids l |- _ => revert H; clear -F He; induction F as [|x y ids l Hx Hl IH] end; intros H k t; cbn.
      - split; [intros []|]. intros (i & j & t' & _ & Hn & _). destruct i; discriminate.
      - inversion H as [|? ? Hy Hl']; subst. rewrite (IH Hl'). split.
        + intros [(t' & -> & H1)|(i & j & t' & -> & H1 & H2)].
          * exists 0, x, t'. rewrite Nat.add_0_r. split; [reflexivity|]. split; [reflexivity|]. eapply Hy; eauto.
          * exists (S i), j, t'. rewrite <- Nat.add_succ_comm. auto.
        + intros ([|i] & j & t' & -> & H1 & H2); cbn in H1.
          * injection H1 as <-. left. exists t'. rewrite Nat.add_0_r. split; [reflexivity|]. eapply Hy; eauto.
          * right. exists i, j, t'. rewrite <- Nat.add_succ_comm. auto. }
    rewrite trees_of_alt, Halt. split.
    + intros (i & j & t' & -> & H1 & H2). econstructor; eauto.
    + intros Hd. inversion Hd; try congruence. subst. exists k, j, t0. split; [reflexivity|]. split; [congruence|assumption].
  - apply trees_fix_unique. intros u. rewrite (IHe (id :: ctx) j (derives tab id :: env)); [|assumption|].
    + split; [intros Hd; inversion Hd; congruence|]. intros Hd. eapply derives_fix; eauto.
    + intros [|n] f Hf v; cbn in *; [injection Hf as <-; reflexivity|]. apply He. exact Hf.
  - cbn. split.
    + intros (t' & -> & Ht'). eapply derives_box; [eassumption|]. eapply He; eauto.
    + intros Hd. inversion Hd; try congruence. subst. eexists. split; [reflexivity|].
      match goal with H1 : def_of tab id = Some (DBox ?x), H2 : def_of tab id = Some (DBox ?y) |- _ =>
        assert (x = y) by congruence; subst end. eapply He; eauto.
Qed.
