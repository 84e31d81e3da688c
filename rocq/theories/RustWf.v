(** * RustWf: the emitted items are a program. *)
From Coq Require Import String.
From Verif Require Import ShareFacts InferMore NameFacts.
From Verif Require Export RustFacts.
From Coq Require Import List Permutation.
Open Scope list_scope.

Lemma nodup_app {A} (l l' : list A) : NoDup l -> NoDup l' -> (forall x, In x l -> In x l' -> False) -> NoDup (l ++ l').
Proof.
  induction 1 as [| x l Hx H IH]; intros H' Hd; [exact H' |]. cbn. constructor.
  - rewrite in_app_iff. intros [K | K]; [exact (Hx K) | exact (Hd x (or_introl eq_refl) K)].
  - apply IH; [exact H' |]. intros y Hy. apply Hd. now right.
Qed.

Section Wf.
  Variable d : table.
  Variables (order : list nat) (root : nat) (alias : rstr).
  Hypothesis Hs : shaped d.
  Hypothesis Hnd : NoDup order.
  Hypothesis Hall : forall x, In x order <-> x < length d.
  Hypothesis Hroot : root < length d.
  Hypothesis Hdist : forall i j s, named_at d i s -> named_at d j s -> i = j.
  Hypothesis Hfresh : forall i, ~ named_at d i alias.
  Hypothesis Hparts : parts_ok d.
  Variable f : nat -> ty.
  Hypothesis Hok : forall i, i < length d -> flat_ok d f i.
  Hypothesis Hleft : left_wf d.
  Hypothesis Hsize : well_founded (fun j i => In j (contains d i)).
  Hypothesis Hchar : forall i, i < length d -> char_ok d i.

  Notation p := (flat_map (items_at d) order ++ [IType alias (SAlias (name_of d root))]).

  Lemma in_p i it : In it (items_at d i) -> In it p.
  Proof.
    intros H. apply in_app_iff. left. apply in_flat_map. exists i. split; [| exact H]. apply Hall. unfold items_at in H.
    apply nth_error_Some. destruct (nth_error d i); [discriminate | contradiction].
  Qed.
  Lemma p_in it : In it p -> (exists i, In it (items_at d i)) \/ it = IType alias (SAlias (name_of d root)).
  Proof.
    intros H. apply in_app_iff in H as [H | [H | []]]; [left | right; auto]. apply in_flat_map in H as (i & _ & H). eauto.
  Qed.

  (** Each kind of item occurs once at most, under the name of the entry. *)
  Lemma named_def i s : named_at d i s -> name_of d i = TnIdent s.
  Proof. unfold named_at, name_of. destruct (nth_error d i); [intros H; now injection H | discriminate]. Qed.
  Lemma one_each i : length (items sel_type (items_at d i)) <= 1 /\ length (items sel_display (items_at d i)) <= 1
    /\ length (items sel_parse (items_at d i)) <= 1 /\ length (items sel_char (items_at d i)) <= 1.
  Proof.
    unfold items_at. destruct (nth_error d i) as [en |]; [| cbn; lia]. unfold items_of.
    destruct (en_def en) as [| s [c |] | [|] parts ids | parts ids a b cs [|] | [j |] | g]; cbn; lia.
  Qed.
  Lemma item_named i it s : In it (items_at d i) -> (exists x, sel_type it = Some (s, x)) \/ (exists x, sel_display it = Some (s, x))
    \/ (exists x, sel_parse it = Some (s, x)) \/ (exists x, sel_char it = Some (s, x)) -> named_at d i s.
  Proof.
    unfold items_at, named_at. destruct (nth_error d i) as [en |] eqn:E; [| contradiction].
    destruct (at_entry d Hs i en E) as (_ & _ & He & _). intros Hi Hx. unfold en_shaped in He. unfold items_of in Hi. cbn [option_map]. f_equal.
    assert (G : forall t, en_name en = TnIdent t -> In it (items_of d en) -> (exists x, sel_type it = Some (s, x)) \/ (exists x, sel_display it = Some (s, x))
      \/ (exists x, sel_parse it = Some (s, x)) \/ (exists x, sel_char it = Some (s, x)) -> s = t).
    { clear. intros t Et Hi Hx. unfold items_of in Hi. rewrite Et in Hi. cbn [ident_of] in Hi.
      destruct (en_def en) as [| w [c |] | [|] parts ids | parts ids a b cs [|] | [j |] | g]; cbn in Hi;
        repeat (destruct Hi as [<- | Hi]); try contradiction; cbn in Hx; destruct Hx as [[x Hx] | [[x Hx] | [[x Hx] | [x Hx]]]]; congruence. }
    assert (K : exists t, en_name en = TnIdent t).
    { destruct (en_def en) as [| w c | nm parts ids | parts ids a b cs cv | [j |] | g]; try contradiction; try exact He; apply He. }
    destruct K as [t Et]. rewrite Et. f_equal. symmetry. apply G; auto.
  Qed.
  Lemma nodup_items {A} (sel : item -> option (rstr * A)) :
    (forall i, length (items sel (items_at d i)) <= 1) -> (forall i s x, In (s, x) (items sel (items_at d i)) -> named_at d i s) ->
    NoDup (map fst (items sel (flat_map (items_at d) order))).
  Proof.
    intros H1 H2. clear Hall. induction Hnd as [| i l Hi Hl IH]; [constructor |]. cbn [flat_map]. rewrite items_app, map_app. apply nodup_app.
    - specialize (H1 i). destruct (items sel (items_at d i)) as [| x [| y m]]; cbn in *; [constructor | | lia]. constructor; [intros [] | constructor].
    - apply IH. exact Hl.
    - intros s Hs1 Hs2. apply in_map_iff in Hs1 as ([s1 x] & E & Hs1). cbn in E. subst s1. apply in_map_iff in Hs2 as ([s2 y] & E & Hs2). cbn in E. subst s2.
      apply items_in in Hs2 as (it & Hit & Es). apply in_flat_map in Hit as (j & Hj & Hit). apply H2 in Hs1.
      assert (Hj' : named_at d j s) by (eapply H2, in_items; eauto). rewrite (Hdist _ _ _ Hs1 Hj') in Hi. contradiction.
  Qed.
  Lemma sel_named {A} (sel : item -> option (rstr * A)) i s x : In (s, x) (items sel (items_at d i)) ->
    (forall it, sel it = Some (s, x) -> (exists x, sel_type it = Some (s, x)) \/ (exists x, sel_display it = Some (s, x))
    \/ (exists x, sel_parse it = Some (s, x)) \/ (exists x, sel_char it = Some (s, x))) -> named_at d i s.
  Proof. intros H K. apply items_in in H as (it & H1 & H2). eapply item_named; eauto. Qed.

  (** Entries of the table are declared and implement the traits. *)
  Lemma def_entry i : i < length d -> exists en, nth_error d i = Some en /\ def_of d i = Some (en_def en) /\ name_of d i = en_name en /\ en_shaped d en /\ items_at d i = items_of d en.
  Proof.
    intros Hi. destruct (nth_error d i) as [en |] eqn:E; [| apply nth_error_None in E; lia]. exists en. destruct (at_entry d Hs i en E) as (H1 & H2 & H3 & H4 & _). auto 6.
  Qed.
  Lemma declare i s sh : In (IType s sh) (items_at d i) -> declared p s.
  Proof. intros H. apply in_map_iff. exists (s, sh). split; [reflexivity |]. apply (in_items sel_type p _ _ (in_p _ _ H) eq_refl). Qed.
  Lemma name_ok i : i < length d -> ty_ok p (name_of d i) /\ parses_as p (name_of d i) /\ displays p (name_of d i).
  Proof.
    induction (Hleft i) as [i _ IH]. intros Hi. destruct (def_entry i Hi) as (en & E & Hd & Hn & He & Hit). pose proof (Hok i Hi) as Hf. unfold flat_ok in Hf. rewrite Hd in Hf.
    unfold en_shaped in He. unfold items_of in Hit. unfold lefts in IH. rewrite Hd in IH. rewrite Hn.
    assert (G : forall s sh b b', en_name en = TnIdent s -> In (IType s sh) (items_at d i) -> In (IParse s b) (items_at d i) -> In (IDisplay s b') (items_at d i) ->
      ty_ok p (en_name en) /\ parses_as p (en_name en) /\ displays p (en_name en)).
    { intros s sh b b' -> H1 H2 H3. split; [now apply declare with i sh |]. split.
      - apply im_impl. apply in_map_iff. exists (s, b). split; [reflexivity |]. apply (in_items sel_parse p _ _ (in_p _ _ H2) eq_refl).
      - apply im_impl. apply in_map_iff. exists (s, b'). split; [reflexivity |]. apply (in_items sel_display p _ _ (in_p _ _ H3) eq_refl). }
    destruct (en_def en) as [| s c | named parts ids | parts ids a b cs conv | [j |] | g] eqn:Ed.
    - rewrite He. split; [exact Logic.I |]. split; apply im_eps; exact Logic.I.
    - destruct He as [nm He]. rewrite He in Hit. cbn [ident_of] in Hit. eapply G; [exact He | | |]; rewrite Hit; cbn; auto.
    - destruct He as [[nm He] _]. rewrite He in Hit. cbn [ident_of] in Hit. destruct named; (eapply G; [exact He | | |]; rewrite Hit; cbn; auto).
    - destruct He as [[nm He] _]. rewrite He in Hit. cbn [ident_of] in Hit. eapply G; [exact He | | |]; rewrite Hit; cbn; auto.
    - destruct He as [nm He]. rewrite He in *. cbn [ident_of] in Hit. destruct Hf as [_ Hj]. destruct (IH j (or_introl eq_refl) Hj) as (I1 & I2 & I3).
      assert (Hi' : In (nm, SAlias (name_of d j)) (items sel_type p)). { apply (in_items sel_type p (IType nm (SAlias (name_of d j))) _); [| reflexivity]. apply (in_p i). rewrite Hit. left. reflexivity. }
      split; [| split]; [| eapply im_alias; eauto | eapply im_alias; eauto]. apply (declare i nm (SAlias (name_of d j))). rewrite Hit. left. reflexivity.
    - contradiction.
    - destruct He as [Hg He]. rewrite He. destruct (IH g (or_introl eq_refl) Hg) as (I1 & I2 & I3). split; [exact I1 |]. split; apply im_box; auto; exact Logic.I.
  Qed.
  Lemma name_char i : i < length d -> has_char d i = true -> into_char p (name_of d i).
  Proof.
    intros Hi Hc. destruct (def_entry i Hi) as (en & E & Hd & Hn & He & Hit). unfold has_char in Hc. rewrite Hd in Hc. unfold en_shaped in He. unfold items_of in Hit. rewrite Hn.
    assert (G : forall s b, en_name en = TnIdent s -> In (IChar s b) (items_at d i) -> into_char p (en_name en)).
    { intros s b -> H. apply im_impl. apply in_map_iff. exists (s, b). split; [reflexivity |]. apply (in_items sel_char p _ _ (in_p _ _ H) eq_refl). }
    destruct (en_def en) as [| s [c |] | named parts ids | parts ids a b cs [|] | [j |] | g] eqn:Ed; try discriminate.
    - destruct He as [nm He]. rewrite He in Hit. cbn [ident_of] in Hit. eapply G; [exact He |]; rewrite Hit; cbn; auto.
    - destruct He as [[nm He] _]. rewrite He in Hit. cbn [ident_of] in Hit. eapply G; [exact He |]; rewrite Hit; cbn; auto 6.
  Qed.

  Lemma in_ids_lt i ids : (exists named parts, def_of d i = Some (DCat named parts ids)) \/ (exists parts a b c e, def_of d i = Some (DAlt parts ids a b c e)) ->
    forall j, In j ids -> j < length d.
  Proof.
    intros H. assert (Hi : i < length d). { apply nth_error_Some. unfold def_of in H. destruct (nth_error d i); [discriminate |]. destruct H as [(? & ? & H) | (? & ? & ? & ? & ? & H)]; discriminate. }
    pose proof (Hok i Hi) as Hf. unfold flat_ok in Hf. destruct H as [(n & q & H) | (q & a & b & c & e & H)]; rewrite H in Hf.
    - apply Forall_forall. apply Hf.
    - apply Forall_forall. apply Hf.
  Qed.

  (** Types are finite. *)
  Lemma type_item i s sh : In (IType s sh) (items_at d i) -> named_at d i s.
  Proof. intros H. eapply item_named; [exact H |]. left. eexists. reflexivity. Qed.
  Lemma shape_contains i s sh t : In (IType s sh) (items_at d i) -> In t (shape_types sh) -> exists j, In j (contains d i) /\ j < length d /\ t = name_of d j.
  Proof.
    intros Hi Ht. assert (Hlt : i < length d). { unfold items_at in Hi. apply nth_error_Some. destruct (nth_error d i); [discriminate | contradiction]. }
    destruct (def_entry i Hlt) as (en & E & Hd & Hn & He & Hit). rewrite Hit in Hi. unfold contains, mentions. rewrite Hd.
    pose proof (in_ids_lt i) as Hids. rewrite Hd in Hids. pose proof (Hok i Hlt) as Hf. unfold flat_ok in Hf. rewrite Hd in Hf. unfold items_of, en_shaped in *.
    assert (G : forall (parts : list rstr) ids t, In t (map snd (combine parts (map (name_of d) ids))) -> length parts = length ids -> exists j, In j ids /\ t = name_of d j).
    { intros parts ids t0 H0 Hl. rewrite map_snd_combine in H0 by (rewrite map_length; lia). apply in_map_iff in H0 as (j & <- & Hj). eauto. }
    destruct (en_def en) as [| w [c |] | [|] parts ids | parts ids a b cs [|] | [j |] | g]; cbn in Hi; repeat (destruct Hi as [Hi | Hi]); try contradiction; try discriminate; injection Hi as _ <-; cbn [shape_types] in Ht; try contradiction.
    - destruct (G _ _ _ Ht) as (j & Hj & ->); [apply He |]. exists j. split; [exact Hj |]. split; [| reflexivity]. eapply Hids; eauto.
    - apply in_map_iff in Ht as (j & <- & Hj). exists j. split; [exact Hj |]. split; [| reflexivity]. eapply Hids; eauto.
    - destruct (G _ _ _ Ht) as (j & Hj & ->); [apply He |]. exists j. split; [exact Hj |]. split; [| reflexivity]. eapply Hids; [right; do 5 eexists; reflexivity | exact Hj].
    - destruct (G _ _ _ Ht) as (j & Hj & ->); [apply He |]. exists j. split; [exact Hj |]. split; [| reflexivity]. eapply Hids; [right; do 5 eexists; reflexivity | exact Hj].
    - destruct Ht as [<- | []]. exists j. split; [left; reflexivity |]. split; [apply Hf | reflexivity].
  Qed.
  Lemma name_named i s : i < length d -> name_of d i = TnIdent s -> named_at d i s.
  Proof. intros Hi H. destruct (def_entry i Hi) as (en & E & _ & Hn & _). unfold named_at. rewrite E. cbn. congruence. Qed.
  Lemma types_in s sh : In (s, sh) (items sel_type p) -> (exists i, In (IType s sh) (items_at d i)) \/ (s = alias /\ sh = SAlias (name_of d root)).
  Proof.
    intros H. apply items_in in H as (it & Hi & Es). apply p_in in Hi as [[i Hi] | ->].
    - left. exists i. destruct it; try discriminate. injection Es as -> ->. exact Hi.
    - right. injection Es as -> ->. auto.
  Qed.
  Lemma acc_named i : i < length d -> forall s, named_at d i s -> Acc (stored p) s.
  Proof.
    induction (Hsize i) as [i _ IH]. intros Hi s Hn. constructor. intros y (sh & H1 & H2). apply types_in in H1 as [(i' & Hi') | [-> _]]; [| destruct (Hfresh _ Hn)].
    pose proof (type_item _ _ _ Hi') as Hn'. rewrite (Hdist _ _ _ Hn' Hn) in *. destruct (shape_contains _ _ _ _ Hi' H2) as (j & Hj & Hlt & Ey).
    apply (IH j Hj Hlt y). now apply name_named.
  Qed.
  Lemma finite : well_founded (stored p).
  Proof.
    intros s. constructor. intros y (sh & H1 & H2). apply types_in in H1 as [(i & Hi) | [-> ->]].
    - destruct (shape_contains _ _ _ _ Hi H2) as (j & _ & Hlt & Ey). apply (acc_named j Hlt). now apply name_named.
    - destruct H2 as [Ey | []]. apply (acc_named root Hroot). now apply name_named.
  Qed.
  Lemma shape_at i s sh : In (IType s sh) (items_at d i) -> In (s, sh) (items sel_type p).
  Proof. intros H. apply (in_items sel_type p _ _ (in_p _ _ H) eq_refl). Qed.

  Theorem emitted_wf : well_formed p.
  Proof.
    assert (Hlt : forall i it, In it (items_at d i) -> i < length d).
    { intros i it H. unfold items_at in H. apply nth_error_Some. destruct (nth_error d i); [discriminate | contradiction]. }
    assert (Hpn : forall i named parts ids, def_of d i = Some (DCat named parts ids) -> NoDup parts /\ length parts = length ids) by (intros i n q ids H; pose proof (Hparts i) as K; now rewrite H in K).
    assert (Hpa : forall i parts ids a b c e, def_of d i = Some (DAlt parts ids a b c e) -> NoDup parts /\ length parts = length ids) by (intros i q ids a b c e H; pose proof (Hparts i) as K; now rewrite H in K).
    constructor.
    - rewrite items_app, map_app. apply nodup_app.
      + apply nodup_items; [intros i; apply one_each |]. intros i s x H. apply (sel_named sel_type i s x H). eauto.
      + cbn. constructor; [intros [] | constructor].
      + intros s Hs1 [<- | []]. apply in_map_iff in Hs1 as ([s1 x] & E & Hs1). cbn in E. subst s1. apply items_in in Hs1 as (it & Hi & Es).
        apply in_flat_map in Hi as (i & _ & Hi). apply (Hfresh i). eapply item_named; eauto.
    - rewrite items_app. cbn [items sel_display]. rewrite app_nil_r. apply nodup_items; [intros i; apply one_each |]. intros i s x H. apply (sel_named sel_display i s x H). eauto.
    - rewrite items_app. cbn [items sel_parse]. rewrite app_nil_r. apply nodup_items; [intros i; apply one_each |]. intros i s x H. apply (sel_named sel_parse i s x H). eauto.
    - rewrite items_app. cbn [items sel_char]. rewrite app_nil_r. apply nodup_items; [intros i; apply one_each |]. intros i s x H. apply (sel_named sel_char i s x H). eauto 6.
    - intros s sh H. apply types_in in H as [(i & Hi) | [-> ->]].
      + split.
        * destruct (def_entry i (Hlt _ _ Hi)) as (en & E & Hd & Hn & He & Hit). rewrite Hit in Hi. specialize (Hpn i). specialize (Hpa i). rewrite Hd in *. unfold items_of in Hi.
          destruct (en_def en) as [| w [c |] | [|] parts ids | parts ids a b cs [|] | [j |] | g]; cbn in Hi; repeat (destruct Hi as [Hi | Hi]); try contradiction; try discriminate; injection Hi as _ <-; cbn [shape_names]; try constructor.
          -- destruct (Hpn _ _ _ eq_refl). rewrite map_fst_combine; [assumption | rewrite map_length; lia].
          -- destruct (Hpa _ _ _ _ _ _ eq_refl). rewrite map_fst_combine; [assumption | rewrite map_length; lia].
          -- destruct (Hpa _ _ _ _ _ _ eq_refl). rewrite map_fst_combine; [assumption | rewrite map_length; lia].
        * intros t Ht. destruct (shape_contains _ _ _ _ Hi Ht) as (j & _ & Hj & ->). now apply name_ok.
      + split; [constructor |]. intros t [<- | []]. now apply name_ok.
    - exact finite.
    - intros s Hd. apply in_map_iff in Hd as ([s1 sh] & E & Hd). cbn in E. subst s1. pose proof Hd as Hd0. apply types_in in Hd as [(i & Hi) | [-> ->]].
      + pose proof (named_def _ _ (type_item _ _ _ Hi)) as En. destruct (name_ok i (Hlt _ _ Hi)) as (_ & H1 & H2). rewrite En in *. auto.
      + destruct (name_ok root Hroot) as (_ & H1 & H2). split; eapply im_alias; eauto.
    - intros s b H. apply items_in in H as (it & Hi & Es). apply p_in in Hi as [[i Hi] | ->]; [| discriminate]. destruct it; try discriminate. injection Es as -> ->.
      destruct (def_entry i (Hlt _ _ Hi)) as (en & E & Hd & Hn & He & Hit). pose proof Hi as Hi0. rewrite Hit in Hi. specialize (Hpn i). specialize (Hpa i). rewrite Hd in *. pose proof (in_ids_lt i) as Hids. rewrite Hd in Hids. unfold items_of in Hi, Hit.
      destruct (en_def en) as [| w [c |] | [|] parts ids | parts ids a b' cs conv | [j |] | g]; cbn in Hi; repeat (destruct Hi as [Hi | Hi]); try contradiction; try discriminate.
      + injection Hi as <- <-. exists SUnit. split; [apply (shape_at i); rewrite Hit; cbn; auto |]. split; [auto | exact Logic.I].
      + injection Hi as <- <-. exists SUnit. split; [apply (shape_at i); rewrite Hit; cbn; auto |]. split; [auto | exact Logic.I].
      + injection Hi as <- <-. destruct (Hpn _ _ _ eq_refl) as [N1 N2]. exists (SFields (combine parts (map (name_of d) ids))). split; [apply (shape_at i); rewrite Hit; cbn; auto |]. split; [auto |].
        intros m Hm. apply in_map_iff in Hm as (q & <- & Hq). apply In_nth_error in Hq as [k Hk]. destruct (nth_error ids k) as [j |] eqn:Ej; [| apply nth_error_None in Ej; assert (k < length parts) by (apply nth_error_Some; congruence); lia].
        exists (name_of d j). split; [| apply name_ok; eapply Hids; [eauto | eapply nth_error_In; eauto]]. cbn. apply get_in; [rewrite map_fst_combine by (rewrite map_length; lia); exact N1 |].
        eapply combine_at; eauto. now apply nth_map_name.
      + injection Hi as <- <-. exists (STuple (map (name_of d) ids)). split; [apply (shape_at i); rewrite Hit; cbn; auto |]. split; [auto |].
        intros m Hm. apply in_map_iff in Hm as (k & <- & Hk). apply in_seq in Hk. destruct (nth_error ids k) as [j |] eqn:Ej; [| apply nth_error_None in Ej; lia].
        exists (name_of d j). split; [cbn; now apply nth_map_name | apply name_ok; eapply Hids; [eauto | eapply nth_error_In; eauto]].
      + injection Hi as <- <-. destruct (Hpa _ _ _ _ _ _ eq_refl) as [N1 N2]. exists (SEnum (combine parts (map (name_of d) ids))). split; [apply (shape_at i); rewrite Hit; cbn; auto |]. split; [auto |].
        eexists. split; [reflexivity |]. split; [apply map_fst_combine; rewrite map_length; lia |]. intros t Ht. rewrite map_snd_combine in Ht by (rewrite map_length; lia). apply in_map_iff in Ht as (j & <- & Hj). apply name_ok. eapply Hids; [right; do 5 eexists; reflexivity | exact Hj].
      + destruct conv; [| contradiction]. destruct Hi as [Hi | []]. discriminate.
    - intros s b H. apply items_in in H as (it & Hi & Es). apply p_in in Hi as [[i Hi] | ->]; [| discriminate]. destruct it; try discriminate. injection Es as -> ->.
      pose proof (Hlt _ _ Hi) as Hi1. destruct (def_entry i Hi1) as (en & E & Hd & Hn & He & Hit). rewrite Hit in Hi. specialize (Hpn i). specialize (Hpa i). rewrite Hd in *. pose proof (in_ids_lt i) as Hids. rewrite Hd in Hids. pose proof (Hok i Hi1) as Hf. unfold flat_ok in Hf. rewrite Hd in Hf. unfold items_of in Hi, Hit.
      destruct (en_def en) as [| w [c |] | [|] parts ids | parts ids a b' cs conv | [j |] | g]; cbn in Hi; repeat (destruct Hi as [Hi | Hi]); try contradiction; try discriminate.
      + injection Hi as <- <-. exists SUnit. split; [apply (shape_at i); rewrite Hit; cbn; auto |]. split; [auto | split; reflexivity].
      + injection Hi as <- <-. exists SUnit. split; [apply (shape_at i); rewrite Hit; cbn; auto |]. split; [auto | split; reflexivity].
      + injection Hi as <- <-. destruct (Hpn _ _ _ eq_refl) as [N1 N2]. exists (SFields (combine parts (map (name_of d) ids))). split; [apply (shape_at i); rewrite Hit; cbn; auto |]. split; [auto |].
        pose proof (number_parts_nodup (lit "part") (length ids)) as Hv. pose proof (number_parts_length (lit "part") (length ids)) as Hvl. set (vars := number_parts _ _) in *.
        split; [| split; [| split]].
        * intros x Hx. apply In_nth_error in Hx as [k Hk]. pose proof (infer_fields d parts vars ids N1 Hv N2 Hvl) as Hall2.
          assert (Hx : exists j, In j ids /\ infer_let (SFields (combine parts (map (name_of d) ids))) (InFields (combine parts vars)) x = Some (name_of d j)).
          { apply nth_error_In in Hk. clear -Hall2 Hk. revert Hk. generalize (infer_let (SFields (combine parts (map (name_of d) ids))) (InFields (combine parts vars))) as g0, Hall2. clear. intros g0 H. induction H as [| y j l l' Hy H IH]; [contradiction |]. intros [-> | Hk]; [exists j; split; [left; reflexivity | exact Hy] |]. destruct (IH Hk) as (j' & H1 & H2). exists j'. split; [right; exact H1 | exact H2]. }
          destruct Hx as (j & Hj & Ej). exists (name_of d j). split; [exact Ej |]. apply name_ok. eapply Hids; eauto.
        * rewrite !map_fst_combine; [apply Permutation_refl | rewrite map_length; lia | lia].
        * rewrite map_snd_combine by lia. auto.
        * rewrite map_snd_combine by lia. exact Hv.
      + injection Hi as <- <-. exists (STuple (map (name_of d) ids)). split; [apply (shape_at i); rewrite Hit; cbn; auto |]. split; [auto |].
        pose proof (number_parts_nodup (lit "part") (length ids)) as Hv. pose proof (number_parts_length (lit "part") (length ids)) as Hvl. set (vars := number_parts _ _) in *.
        split; [| split; [| split]].
        * intros x Hx. apply In_nth_error in Hx as [k Hk]. destruct (nth_error ids k) as [j |] eqn:Ej; [| apply nth_error_None in Ej; assert (k < length vars) by (apply nth_error_Some; congruence); lia].
          exists (name_of d j). split; [| apply name_ok; eapply Hids; [eauto | eapply nth_error_In; eauto]]. cbn [infer_let]. rewrite (position_nth vars k x Hv Hk). now apply nth_map_name.
        * rewrite map_length. exact Hvl.
        * auto.
        * exact Hv.
      + injection Hi as <- <-. destruct (Hpa _ _ _ _ _ _ eq_refl) as [N1 N2]. exists (SEnum (combine parts (map (name_of d) ids))). split; [apply (shape_at i); rewrite Hit; cbn; auto |]. split; [auto |].
        eexists. split; [reflexivity |]. destruct Hf as (_ & _ & Ha & Hb & _).
        assert (G : forall k, k < length ids -> exists t, In (nth k parts [], t) (combine parts (map (name_of d) ids)) /\ parses_as p t).
        { intros k Hk. destruct (nth_error ids k) as [j |] eqn:Ej; [| apply nth_error_None in Ej; lia]. exists (name_of d j). split.
          - eapply combine_at; [apply nth_error_nth'; lia | now apply nth_map_name].
          - apply name_ok. eapply Hids; [right; do 5 eexists; reflexivity | eapply nth_error_In; eauto]. }
        intros v [Hv | Hv].
        * rewrite map_map in Hv. apply in_map_iff in Hv as ([k l] & <- & Hv). cbn. apply G. subst a. clear -Hv.
          assert (K : forall tys m, In (k, l) (first_arms m tys) -> k < m + length tys).
          { induction tys as [| t tys IH]; intros m; cbn; [contradiction |]. destruct (cset_is_empty (first_set t)); cbn.
            - intros H. apply IH in H. lia.
            - intros [H | H]; [injection H as <- _; lia | apply IH in H; lia]. }
          apply K in Hv. rewrite map_length in Hv. exact Hv.
        * destruct b' as [k |]; [| discriminate]. injection Hv as <-. apply G. symmetry in Hb. apply find_nullable_lt in Hb. rewrite map_length in Hb. lia.
      + destruct conv; [| contradiction]. destruct Hi as [Hi | []]. discriminate.
    - intros s b H. apply items_in in H as (it & Hi & Es). apply p_in in Hi as [[i Hi] | ->]; [| discriminate]. destruct it; try discriminate. injection Es as -> ->.
      pose proof (Hlt _ _ Hi) as Hi1. destruct (def_entry i Hi1) as (en & E & Hd & Hn & He & Hit). rewrite Hit in Hi. specialize (Hpa i). rewrite Hd in *. pose proof (in_ids_lt i) as Hids. rewrite Hd in Hids. pose proof (Hchar i Hi1) as Hc. unfold char_ok in Hc. rewrite Hd in Hc. unfold items_of in Hi, Hit.
      destruct (en_def en) as [| w [c |] | [|] parts ids | parts ids a b' cs [|] | [j |] | g]; cbn in Hi; repeat (destruct Hi as [Hi | Hi]); try contradiction; try discriminate.
      + injection Hi as <- <-. exists SUnit. split; [apply (shape_at i); rewrite Hit; cbn; auto |]. split; [auto | exact Logic.I].
      + injection Hi as <- <-. destruct (Hpa _ _ _ _ _ _ eq_refl) as [N1 N2]. exists (SEnum (combine parts (map (name_of d) ids))). split; [apply (shape_at i); rewrite Hit; cbn; auto |]. split; [auto |].
        eexists. split; [reflexivity |]. split; [apply map_fst_combine; rewrite map_length; lia |]. intros t Ht. rewrite map_snd_combine in Ht by (rewrite map_length; lia). apply in_map_iff in Ht as (j & <- & Hj).
        symmetry in Hc. rewrite forallb_forall in Hc. apply name_char; [eapply Hids; [right; do 5 eexists; reflexivity | exact Hj] | auto].
    - intros s Hp. apply in_map_iff in Hp as ([s1 b] & E & Hp). cbn in E. subst s1. apply items_in in Hp as (it & Hi & Es). apply p_in in Hi as [[i Hi] | ->]; [| discriminate]. destruct it; try discriminate. injection Es as -> ->.
      assert (K : exists b', In (IDisplay s b') (items_at d i)).
      { unfold items_at in *. destruct (nth_error d i) as [en |]; [| contradiction]. unfold items_of in *.
        destruct (en_def en) as [| w [c |] | [|] parts ids | parts ids a b' cs [|] | [j |] | g]; cbn in Hi; repeat (destruct Hi as [Hi | Hi]); try contradiction; try discriminate; injection Hi as <- <-; eexists; cbn; eauto. }
      destruct K as [b' K]. apply in_map_iff. exists (s, b'). split; [reflexivity |]. apply (in_items sel_display p _ _ (in_p _ _ K) eq_refl).
  Qed.
End Wf.
