(** * TableFacts: the parser of a well-typed table of definitions. *)
From Verif Require Export SpecTable RuntimeFacts TypeFacts.

Section Table.
  Variable tab : table.
  Variable tau : nat -> ty.

  Definition disj (a b : list char) : Prop := forall c, In c a -> In c b -> False.

  Inductive seq_ok : ty -> list nat -> ty -> Prop :=
  | seq_ok_nil t : seq_ok t [] t
  | seq_ok_cons t x xs t' : disj (flast_set t) (first_set (tau x)) -> seq_ok (ty_cat t (tau x)) xs t' -> seq_ok t (x :: xs) t'.
  Inductive alt_ok : ty -> list nat -> ty -> Prop :=
  | alt_ok_nil t : alt_ok t [] t
  | alt_ok_cons t x xs t' : ~ (nullable t = true /\ nullable (tau x) = true) -> disj (first_set t) (first_set (tau x)) ->
      alt_ok (ty_alt t (tau x)) xs t' -> alt_ok t (x :: xs) t'.

  (** Local typing of a definition. *)
  Definition flat_ok (id : nat) : Prop :=
    match def_of tab id with
    | Some DEps => tau id = ty_eps
    | Some (DLit s _) => tau id = ty_of_str s
    | Some (DCat _ _ ids) =>
      match ids with
      | [] => False
      | x :: xs => nullable (tau x) = false /\ seq_ok (tau x) xs (tau id)
      end /\ Forall (fun j => j < length tab) ids
    | Some (DAlt _ ids firsts null all _) =>
      match ids with
      | [] => False
      | x :: xs => alt_ok (tau x) xs (tau id)
      end /\ Forall (fun j => j < length tab) ids
      /\ firsts = first_arms 0 (map tau ids) /\ null = find_nullable 0 (map tau ids)
      /\ all = flat_map (fun j => first_set (tau j)) ids
    | Some (DFix (Some j)) => tau id = tau j /\ j < length tab
    | Some (DBox f) => tau id = tau f /\ f < length tab
    | _ => False
    end.

  Hypothesis Hok : forall id, id < length tab -> flat_ok id.

  Lemma def_lt id d : def_of tab id = Some d -> id < length tab.
  Proof.
    unfold def_of. intros H. apply nth_error_Some. destruct (nth_error tab id); [discriminate|discriminate].
  Qed.
  Lemma def_ok id d : def_of tab id = Some d -> flat_ok id.
  Proof. intros H. apply Hok. eapply def_lt; eauto. Qed.

  (** ** Sets of a concatenation / alternation *)
  Lemma cat_first a b c : In c (first_set (ty_cat a b)) <-> In c (first_set a) \/ (nullable a = true /\ In c (first_set b)).
  Proof.
    destruct (st_of_cat a b) as [(_ & H & _) (_ & H' & _)]. specialize (H c). specialize (H' c). cbn in H, H'. split; auto.
  Qed.
  Lemma cat_flast a b c : In c (flast_set (ty_cat a b)) <->
    In c (flast_set b) \/ (nullable b = true /\ (In c (first_set b) \/ In c (flast_set a))).
  Proof.
    destruct (st_of_cat a b) as [(_ & _ & H) (_ & _ & H')]. specialize (H c). specialize (H' c). cbn in H, H'. split; auto.
  Qed.
  Lemma alt_first a b c : In c (first_set (ty_alt a b)) <-> In c (first_set a) \/ In c (first_set b).
  Proof. apply cset_union_In. Qed.
  Lemma alt_flast a b c : In c (flast_set (ty_alt a b)) <-> In c (flast_set a) \/ In c (flast_set b).
  Proof. apply cset_union_In. Qed.

  Lemma seq_ok_first t xs t' : seq_ok t xs t' -> nullable t = false ->
    nullable t' = false /\ (forall c, In c (first_set t') <-> In c (first_set t)).
  Proof.
    induction 1 as [t|t x xs t' Hd Hs IH]; intros Hn; [split; [exact Hn|reflexivity]|].
    destruct IH as [IH1 IH2]; [cbn; rewrite Hn; reflexivity|]. split; [exact IH1|].
    intros c. rewrite IH2, cat_first, Hn. split; [intros [H|[H _]]; [exact H|discriminate]|auto].
  Qed.

  Lemma alt_ok_sets t xs t' : alt_ok t xs t' ->
    (nullable t' = true <-> nullable t = true \/ exists j, In j xs /\ nullable (tau j) = true)
    /\ (forall c, In c (first_set t') <-> In c (first_set t) \/ exists j, In j xs /\ In c (first_set (tau j)))
    /\ (forall c, In c (flast_set t') <-> In c (flast_set t) \/ exists j, In j xs /\ In c (flast_set (tau j))).
  Proof.
    induction 1 as [t|t x xs t' Hn Hd Hs (IH1 & IH2 & IH3)].
    - split; [|split]; intros; split; auto; intros [H|(j & [] & _)]; exact H.
    - split; [|split].
      + rewrite IH1. cbn. rewrite orb_true_iff. split.
        * intros [[H|H]|(j & Hj & H)]; eauto.
        * intros [H|(j & [->|Hj] & H)]; eauto.
      + intros c. rewrite IH2, alt_first. split.
        * intros [[H|H]|(j & Hj & H)]; [auto|right; exists x; cbn; auto|right; exists j; cbn; auto].
        * intros [H|(j & [->|Hj] & H)]; eauto.
      + intros c. rewrite IH3, alt_flast. split.
        * intros [[H|H]|(j & Hj & H)]; [auto|right; exists x; cbn; auto|right; exists j; cbn; auto].
        * intros [H|(j & [->|Hj] & H)]; eauto.
  Qed.

  (** All branches: the conclusion for the whole list. *)
  Lemma alts_sets x xs t' : alt_ok (tau x) xs t' ->
    (nullable t' = true <-> exists j, In j (x :: xs) /\ nullable (tau j) = true)
    /\ (forall c, In c (first_set t') <-> exists j, In j (x :: xs) /\ In c (first_set (tau j)))
    /\ (forall c, In c (flast_set t') <-> exists j, In j (x :: xs) /\ In c (flast_set (tau j))).
  Proof.
    intros H. destruct (alt_ok_sets _ _ _ H) as (H1 & H2 & H3). split; [|split]; intros.
    - rewrite H1. split; [intros [E|(j & ? & ?)]; [exists x|exists j]; cbn; auto|intros (j & [->|E] & ?); eauto].
    - rewrite H2. split; [intros [E|(j & ? & ?)]; [exists x|exists j]; cbn; auto|intros (j & [->|E] & ?); eauto].
    - rewrite H3. split; [intros [E|(j & ? & ?)]; [exists x|exists j]; cbn; auto|intros (j & [->|E] & ?); eauto].
  Qed.

  (** Different branches are apart. *)
  Lemma alt_ok_front t xs t' : alt_ok t xs t' -> forall k j, nth_error xs k = Some j ->
    ~ (nullable t = true /\ nullable (tau j) = true) /\ disj (first_set t) (first_set (tau j)).
  Proof.
    induction 1 as [t|t x xs t' Hn Hd Hs IH]; intros k j Hk; [destruct k; discriminate|].
    destruct k as [|k]; cbn in Hk; [injection Hk as <-; auto|].
    destruct (IH k j Hk) as [I1 I2]. split.
    - intros [A B]. apply I1. split; [cbn; rewrite A; reflexivity|exact B].
    - intros c A B. apply (I2 c); [apply alt_first; auto|exact B].
  Qed.
  Lemma alt_ok_pair t xs t' : alt_ok t xs t' -> forall k k' j j', nth_error xs k = Some j -> nth_error xs k' = Some j' -> k < k' ->
    ~ (nullable (tau j) = true /\ nullable (tau j') = true) /\ disj (first_set (tau j)) (first_set (tau j')).
  Proof.
    induction 1 as [t|t x xs t' Hn Hd Hs IH]; intros k k' j j' Hk Hk' Hlt; [destruct k; discriminate|].
    destruct k' as [|k']; [lia|]. cbn in Hk'. destruct k as [|k]; cbn in Hk.
    - injection Hk as <-. destruct (alt_ok_front _ _ _ Hs k' j' Hk') as [I1 I2]. split.
      + intros [A B]. apply I1. split; [cbn; rewrite A; apply orb_true_r|exact B].
      + intros c A B. apply (I2 c); [apply alt_first; auto|exact B].
    - apply (IH k k'); auto. lia.
  Qed.
  Lemma alts_pair x xs t' : alt_ok (tau x) xs t' -> forall k k' j j', nth_error (x :: xs) k = Some j ->
    nth_error (x :: xs) k' = Some j' -> k <> k' ->
    ~ (nullable (tau j) = true /\ nullable (tau j') = true) /\ disj (first_set (tau j)) (first_set (tau j')).
  Proof.
    intros H.
    assert (G : forall k k' j j', nth_error (x :: xs) k = Some j -> nth_error (x :: xs) k' = Some j' -> k < k' ->
      ~ (nullable (tau j) = true /\ nullable (tau j') = true) /\ disj (first_set (tau j)) (first_set (tau j'))).
    { intros k k' j j' Hk Hk' Hlt. destruct k' as [|k']; [lia|]. cbn in Hk'. destruct k as [|k]; cbn in Hk.
      - injection Hk as <-. eapply alt_ok_front; eauto.
      - eapply (alt_ok_pair _ _ _ H k k'); eauto. lia. }
    intros k k' j j' Hk Hk' Hne. destruct (Nat.lt_total k k') as [Hl|[Hl|Hl]]; [eauto|contradiction|].
    destruct (G k' k j' j Hk' Hk Hl) as [G1 G2]. split; [tauto|]. intros c A B. eapply G2; eauto.
  Qed.

  (** Dispatch *)
  Lemma pick_arm_spec c ids : (forall k k' j j', nth_error ids k = Some j -> nth_error ids k' = Some j' -> k <> k' ->
      disj (first_set (tau j)) (first_set (tau j'))) ->
    forall m, match pick_arm c (first_arms m (map tau ids)) with
    | Some k => exists k0 j, k = m + k0 /\ nth_error ids k0 = Some j /\ In c (first_set (tau j))
    | None => forall j, In j ids -> ~ In c (first_set (tau j))
    end.
  Proof.
    intros H. clear Hok. induction ids as [|x ids IH]; intros m; cbn [map first_arms].
    - cbn. intros j [].
    - assert (IH' := IH (fun k k' j j' Hk Hk' Hne => H (S k) (S k') j j' Hk Hk' (fun E => Hne (eq_add_S _ _ E))) (S m)). clear IH.
      assert (Hnot : ~ In c (first_set (tau x)) -> match pick_arm c (first_arms (S m) (map tau ids)) with
        | Some k => exists k0 j, k = m + k0 /\ nth_error (x :: ids) k0 = Some j /\ In c (first_set (tau j))
        | None => forall j, In j (x :: ids) -> ~ In c (first_set (tau j)) end).
      { intros Hx. destruct (pick_arm c (first_arms (S m) (map tau ids))) as [k|].
        - destruct IH' as (k0 & j & -> & Hj & Hc). exists (S k0), j. split; [lia|auto].
        - intros j [<-|Hj]; auto. }
      destruct (cset_is_empty (first_set (tau x))) eqn:E.
      + apply Hnot. rewrite cset_is_empty_spec in E. apply E.
      + cbn [pick_arm]. destruct (mem_char c (first_set (tau x))) eqn:Em.
        * apply mem_char_In in Em. exists 0, x. split; [lia|]. split; [reflexivity|exact Em].
        * apply Hnot. intros Hin. apply mem_char_In in Hin. congruence.
  Qed.
  Lemma find_nullable_spec ids : forall m, match find_nullable m (map tau ids) with
    | Some k => exists k0 j, k = m + k0 /\ nth_error ids k0 = Some j /\ nullable (tau j) = true
    | None => forall j, In j ids -> nullable (tau j) = false
    end.
  Proof.
    clear Hok. induction ids as [|x ids IH]; intros m; cbn [map find_nullable].
    - intros j [].
    - destruct (nullable (tau x)) eqn:E.
      + exists 0, x. split; [lia|auto].
      + specialize (IH (S m)). destruct (find_nullable (S m) (map tau ids)) as [k|].
        * destruct IH as (k0 & j & -> & Hj & Hc). exists (S k0), j. split; [lia|auto].
        * intros j [<-|Hj]; auto.
  Qed.

  (** ** First characters *)
  Definition starts (id : nat) (w : rstr) : Prop :=
    match w with
    | [] => nullable (tau id) = true
    | c :: _ => In c (first_set (tau id))
    end.

  Theorem derives_starts :
    (forall id t, derives tab id t -> starts id (yield t)) /\
    (forall ids ts, derives_seq tab ids ts -> Forall2 (fun id t => starts id (yield t)) ids ts).
  Proof.
    apply derives_mutind.
    - intros id Hd. apply def_ok in Hd as H. unfold flat_ok in H. rewrite Hd in H. cbn. rewrite H. reflexivity.
    - intros id s c Hd. apply def_ok in Hd as H. unfold flat_ok in H. rewrite Hd in H. cbn [yield]. unfold starts.
      rewrite H. destruct s as [|x s]; [reflexivity|]. cbn. auto.
    - intros id n p ids ts Hd Hs IH. apply def_ok in Hd as H. unfold flat_ok in H. rewrite Hd in H. cbn [yield].
      destruct H as [H _]. destruct ids as [|x xs]; [contradiction|]. destruct H as [Hn Hseq].
      inversion IH as [|? t ? ts' Hx Hxs]; subst. cbn [flat_map].
      destruct (seq_ok_first _ _ _ Hseq Hn) as [_ Hf]. unfold starts in Hx.
      destruct (yield t) as [|c w]; [congruence|]. cbn. apply Hf. exact Hx.
    - intros id p ids f n a c k j t Hd Hk Ht IH. apply def_ok in Hd as H. unfold flat_ok in H. rewrite Hd in H. cbn [yield].
      destruct H as (H & _). destruct ids as [|x xs]; [contradiction|].
      destruct (alts_sets _ _ _ H) as (H1 & H2 & _). apply nth_error_In in Hk.
      unfold starts in *. destruct (yield t) as [|ch w]; [apply H1; eauto|apply H2; eauto].
    - intros id j t Hd Ht IH. apply def_ok in Hd as H. unfold flat_ok in H. rewrite Hd in H.
      unfold starts in *. rewrite (proj1 H). exact IH.
    - intros id f t Hd Ht IH. apply def_ok in Hd as H. unfold flat_ok in H. rewrite Hd in H. cbn [yield].
      unfold starts in *. rewrite (proj1 H). exact IH.
    - constructor.
    - intros id ids t ts _ H1 _ H2. constructor; assumption.
  Qed.

  (** What may follow a sequence does not belong to the flast of its front. *)
  Lemma seq_follow t xs t' : seq_ok t xs t' -> forall ts r, derives_seq tab xs ts ->
    (forall c, hd_error r = Some c -> ~ In c (flast_set t')) ->
    forall c, hd_error (flat_map yield ts ++ r) = Some c -> ~ In c (flast_set t).
  Proof.
    induction 1 as [t|t x xs t' Hd Hs IH]; intros ts r Hts Hr c Hc; inversion Hts as [|? ? t0 ts' H0 H1]; subst.
    - cbn in Hc. auto.
    - cbn [flat_map] in Hc. rewrite <- app_assoc in Hc.
      pose proof (proj1 derives_starts _ _ H0) as Hx. unfold starts in Hx.
      destruct (yield t0) as [|d w].
      + cbn [app] in Hc. intros Hin. apply (IH ts' r H1 Hr c Hc). apply cat_flast. auto.
      + cbn in Hc. injection Hc as ->. intros Hin. eapply Hd; eauto.
  Qed.

  (** ** Fuel *)
  Definition not_out {A E} (r : res A E) : Prop := r <> OutOfFuel.
  Lemma take_seq_mono (f g : nat -> iw -> res tree take_error * iw) ids :
    (forall id st, not_out (fst (f id st)) -> g id st = f id st) ->
    forall st, not_out (fst (take_seq f ids st)) -> take_seq g ids st = take_seq f ids st.
  Proof.
    intros H. clear Hok. induction ids as [|id ids IH]; intros st Hn; [reflexivity|]. cbn [take_seq] in *.
    assert (Hid : not_out (fst (f id st))).
    { destruct (f id st) as [[t|e| |] st1]; cbn in *; try discriminate. intros _; apply Hn; reflexivity. }
    rewrite (H _ _ Hid). destruct (f id st) as [[t|e| |] st1]; try reflexivity.
    rewrite IH; [reflexivity|]. destruct (take_seq f ids st1) as [[x|e| |] st2]; cbn in *; try discriminate. intros _; apply Hn; reflexivity.
  Qed.
  Lemma take_branch_mono (f g : nat -> iw -> res tree take_error * iw) ids k :
    (forall id st, not_out (fst (f id st)) -> g id st = f id st) ->
    forall st, not_out (fst (take_branch f ids k st)) -> take_branch g ids k st = take_branch f ids k st.
  Proof.
    intros H st. unfold take_branch. destruct (nth_error ids k) as [j|]; [|reflexivity].
    intros Hn. rewrite H; [reflexivity|]. destruct (f j st) as [[x|e| |] st1]; cbn in *; try discriminate. intros _; apply Hn; reflexivity.
  Qed.
  Definition take_body (f : nat -> iw -> res tree take_error * iw) (id : nat) (st : iw) : res tree take_error * iw :=
    match def_of tab id with
    | None => (Panic, st)
    | Some DEps => (Ok NEps, st)
    | Some (DLit s _) => let '(r, st1) := consume_str s st in (res_map (fun _ => NLit s) r, st1)
    | Some (DCat _ _ ids) => let '(r, st1) := take_seq f ids st in (res_map NCat r, st1)
    | Some (DAlt _ ids firsts null all_firsts _) =>
      let '(p, st1) := iw_peek st in
      match match p with Some c => pick_arm c firsts | None => None end with
      | Some k => take_branch f ids k st1
      | None =>
        match null with
        | Some k => take_branch f ids k st1
        | None =>
          match p with
          | Some c => (Err (BadBranch (iw_pos st1) c all_firsts), st1)
          | None => (Err (EndOfStream (iw_pos st1)), st1)
          end
        end
      end
    | Some (DFix None) => (Panic, st)
    | Some (DFix (Some j)) => f j st
    | Some (DBox j) => let '(r, st1) := f j st in (res_map NBox r, st1)
    end.
  Lemma take_S n id st : take tab (S n) id st = take_body (take tab n) id st.
  Proof. reflexivity. Qed.
  Lemma take_S_mono fuel : forall id st, not_out (fst (take tab fuel id st)) -> take tab (S fuel) id st = take tab fuel id st.
  Proof.
    clear Hok. induction fuel as [|n IH]; intros id st Hn; [exfalso; apply Hn; reflexivity|].
    rewrite (take_S (S n)), (take_S n). rewrite (take_S n) in Hn. unfold take_body in *.
    destruct (def_of tab id) as [[|s c|nm p ids|p ids fs nl al c|[j|]|f]|]; try reflexivity.
    - rewrite (take_seq_mono (take tab n)); [reflexivity|exact IH|].
      destruct (take_seq (take tab n) ids st) as [[x|e| |] st2]; cbn in *; try discriminate. intros _; apply Hn; reflexivity.
    - destruct (iw_peek st) as [q st1].
      destruct (match q with Some c0 => pick_arm c0 fs | None => None end) as [k|].
      + apply take_branch_mono; auto.
      + destruct nl as [k|]; [apply take_branch_mono; auto|reflexivity].
    - apply IH. exact Hn.
    - rewrite IH; [reflexivity|]. destruct (take tab n f st) as [[x|e| |] st2]; cbn in *; try discriminate. intros _; apply Hn; reflexivity.
  Qed.
  Lemma take_mono fuel fuel' id st : fuel <= fuel' -> not_out (fst (take tab fuel id st)) ->
    take tab fuel' id st = take tab fuel id st.
  Proof.
    induction 1 as [|m Hle IH]; intros Hn; [reflexivity|]. specialize (IH Hn).
    rewrite take_S_mono; [exact IH|]. rewrite IH. exact Hn.
  Qed.

  (** ** Completeness *)
  Definition follow (id : nat) (w r : rstr) : Prop :=
    forall c, hd_error r = Some c ->
      (w <> [] -> ~ In c (flast_set (tau id))) /\ (w = [] -> ~ In c (first_set (tau id))).

  Fixpoint seq_follows (ids : list nat) (ts : list tree) (r : rstr) : Prop :=
    match ids, ts with
    | id :: ids', t :: ts' => follow id (yield t) (flat_map yield ts' ++ r) /\ seq_follows ids' ts' r
    | _, _ => True
    end.
  Lemma seq_ok_follows t xs t' : seq_ok t xs t' -> forall ts r, derives_seq tab xs ts ->
    (forall c, hd_error r = Some c -> ~ In c (flast_set t')) -> seq_follows xs ts r.
  Proof.
    induction 1 as [t|t x xs t' Hd Hs IH]; intros ts r Hts Hr; inversion Hts as [|? ? t0 ts' H0 H1]; subst; cbn; auto.
    split; [|apply IH; auto].
    intros c Hc. pose proof (seq_follow _ _ _ Hs ts' r H1 Hr c Hc) as Hn. rewrite cat_flast in Hn.
    pose proof (proj1 derives_starts _ _ H0) as Hx. split; intros Hy; [tauto|].
    rewrite Hy in Hx. cbn in Hx. tauto.
  Qed.
  Lemma cat_follows id nm p ids ts r : def_of tab id = Some (DCat nm p ids) -> derives_seq tab ids ts ->
    follow id (flat_map yield ts) r -> seq_follows ids ts r /\ flat_map yield ts <> [].
  Proof.
    intros Hd Hs Hfol. apply def_ok in Hd as H. unfold flat_ok in H. rewrite Hd in H.
    destruct H as [H _]. destruct ids as [|x xs]; [contradiction|]. destruct H as [Hn Hseq].
    inversion Hs as [|? ? t0 ts' H0 H1]; subst.
    pose proof (proj1 derives_starts _ _ H0) as Hx. unfold starts in Hx.
    assert (Hy : yield t0 <> []) by (destruct (yield t0); [congruence|discriminate]).
    assert (Hne : flat_map yield (t0 :: ts') <> []) by (cbn; destruct (yield t0); [congruence|discriminate]).
    split; [|exact Hne].
    assert (Hflast : forall c, hd_error r = Some c -> ~ In c (flast_set (tau id))) by (intros c Hc; apply (Hfol c Hc); exact Hne).
    cbn [seq_follows]. split.
    - intros c Hc. split; [intros _; eapply seq_follow; eauto|contradiction].
    - eapply seq_ok_follows; eauto.
  Qed.

  Lemma take_lit_ok s u r st : at_cursor u (s ++ r) st ->
    exists st', consume_str s st = (Ok tt, st') /\ at_cursor (u ++ s) r st'.
  Proof.
    intros Hc. destruct (consume_loop_spec s s 0 u (s ++ r) st Hc) as (r' & Hr & Hx).
    cbv zeta in Hr, Hx. rewrite lcp_self in Hr, Hx. apply app_inv_head in Hr. subst r'. unfold consume_str.
    destruct (consume_loop s s 0 st) as [x st']. destruct Hx as [Hx1 Hx2]. rewrite Nat.eqb_refl in Hx2.
    exists st'. split; [|exact Hx1]. destruct r; rewrite Hx2; reflexivity.
  Qed.

  Lemma hd_app_nil (w r : rstr) : w = [] -> hd_error (w ++ r) = hd_error r.
  Proof. intros ->. reflexivity. Qed.

  Theorem take_complete :
    (forall id t, derives tab id t -> forall u r st, at_cursor u (yield t ++ r) st -> follow id (yield t) r ->
       exists fuel, forall fuel', fuel <= fuel' -> exists st', take tab fuel' id st = (Ok t, st') /\ at_cursor (u ++ yield t) r st')
    /\
    (forall ids ts, derives_seq tab ids ts -> forall u r st,
       at_cursor u (flat_map yield ts ++ r) st -> seq_follows ids ts r ->
       exists fuel, forall fuel', fuel <= fuel' -> exists st', take_seq (take tab fuel') ids st = (Ok ts, st')
         /\ at_cursor (u ++ flat_map yield ts) r st').
  Proof.
    apply derives_mutind.
    - intros id Hd u r st Hc _. exists 1. intros [|n] Hf; [lia|]. exists st. cbn. rewrite Hd, app_nil_r. split; [reflexivity|exact Hc].
    - intros id s c Hd u r st Hc _. exists 1. intros [|n] Hf; [lia|]. cbn [take]. rewrite Hd.
      destruct (take_lit_ok s u r st Hc) as (st' & E & Hc'). exists st'. rewrite E. auto.
    - intros id nm p ids ts Hd Hs IH u r st Hc Hfol. cbn [yield] in *.
      destruct (cat_follows _ _ _ _ _ _ Hd Hs Hfol) as [Hf _].
      destruct (IH u r st Hc Hf) as [fuel Hfuel]. exists (S fuel). intros [|n] Hle; [lia|].
      destruct (Hfuel n) as (st' & E & Hc'); [lia|]. exists st'. cbn [take]. rewrite Hd, E. auto.
    - intros id p ids fs nl al c k j t Hd Hk Ht IH u r st Hc Hfol. apply def_ok in Hd as H. unfold flat_ok in H. rewrite Hd in H.
      destruct H as (H & _ & -> & -> & _). destruct ids as [|x xs]; [contradiction|].
      pose proof (alts_pair _ _ _ H) as Hpair. destruct (alts_sets _ _ _ H) as (S1 & S2 & S3).
      cbn [yield] in *. pose proof (proj1 derives_starts _ _ Ht) as Hst.
      destruct (peek_at _ _ _ Hc) as [P1 P2].
      destruct (IH u r (snd (iw_peek st)) P2) as [fuel Hfuel].
      { intros d Hd'. destruct (Hfol d Hd') as [F1 F2]. split; intros Hw; [specialize (F1 Hw)|specialize (F2 Hw)]; intros Hin.
        - apply F1, S3. exists j. split; [eapply nth_error_In; eauto|exact Hin].
        - apply F2, S2. exists j. split; [eapply nth_error_In; eauto|exact Hin]. }
      exists (S fuel). intros [|n] Hle; [lia|]. destruct (Hfuel n) as (st' & E & Hc'); [lia|].
      exists st'. split; [|exact Hc']. cbn [take]. rewrite Hd.
      destruct (iw_peek st) as [q st1]. cbn in P1, P2, E. subst q.
      assert (Hbr : take_branch (take tab n) (x :: xs) k st1 = (Ok (NAlt k t), st')).
      { unfold take_branch. rewrite Hk, E. reflexivity. }
      assert (Hpk : forall ch, match pick_arm ch (first_arms 0 (map tau (x :: xs))) with
        | Some k0 => exists j, nth_error (x :: xs) k0 = Some j /\ In ch (first_set (tau j))
        | None => forall j, In j (x :: xs) -> ~ In ch (first_set (tau j)) end).
      { intros ch. pose proof (pick_arm_spec ch (x :: xs)) as Hp.
        specialize (Hp (fun k k' j j' Hk Hk' Hne => proj2 (Hpair k k' j j' Hk Hk' Hne)) 0).
        destruct (pick_arm ch _); [|exact Hp]. destruct Hp as (k0 & j0 & -> & ? & ?). eauto. }
      destruct (yield t) as [|ch w] eqn:Ey.
      + (* empty: no arm applies, the nullable branch is [k] *)
        cbn [app] in *. unfold starts in Hst.
        assert (Hno : match hd_error r with Some ch => pick_arm ch (first_arms 0 (map tau (x :: xs))) | None => None end = None).
        { destruct (hd_error r) as [ch|] eqn:Er; [|reflexivity]. specialize (Hpk ch).
          destruct (pick_arm ch _) as [k0|]; [|reflexivity]. exfalso. destruct Hpk as (j0 & Hj0 & Hin).
          apply (proj2 (Hfol ch Er) eq_refl). apply S2. exists j0. split; [eapply nth_error_In; eauto|exact Hin]. }
        rewrite Hno. pose proof (find_nullable_spec (x :: xs) 0) as Hn.
        destruct (find_nullable 0 (map tau (x :: xs))) as [k0|].
        * destruct Hn as (k1 & j0 & E1 & Hj0 & Hn0). cbn in E1. subst k1.
          destruct (Nat.eq_dec k0 k) as [->|Hne]; [exact Hbr|]. exfalso.
          apply (proj1 (Hpair k0 k j0 j Hj0 Hk Hne)). auto.
        * exfalso. rewrite (Hn j) in Hst; [discriminate|eapply nth_error_In; eauto].
      + cbn [app hd_error]. specialize (Hpk ch). unfold starts in Hst.
        destruct (pick_arm ch _) as [k0|].
        * destruct Hpk as (j0 & Hj0 & Hin). destruct (Nat.eq_dec k0 k) as [->|Hne]; [exact Hbr|]. exfalso.
          apply (proj2 (Hpair k0 k j0 j Hj0 Hk Hne) ch); auto.
        * exfalso. apply (Hpk j); [eapply nth_error_In; eauto|exact Hst].
    - intros id j t Hd Ht IH u r st Hc Hfol. apply def_ok in Hd as H. unfold flat_ok in H. rewrite Hd in H.
      destruct (IH u r st Hc) as [fuel Hfuel].
      { unfold follow in *. rewrite <- (proj1 H). exact Hfol. }
      exists (S fuel). intros [|n] Hle; [lia|]. destruct (Hfuel n) as (st' & E & Hc'); [lia|].
      exists st'. cbn [take]. rewrite Hd. auto.
    - intros id f t Hd Ht IH u r st Hc Hfol. apply def_ok in Hd as H. unfold flat_ok in H. rewrite Hd in H. cbn [yield] in *.
      destruct (IH u r st Hc) as [fuel Hfuel].
      { unfold follow in *. rewrite <- (proj1 H). exact Hfol. }
      exists (S fuel). intros [|n] Hle; [lia|]. destruct (Hfuel n) as (st' & E & Hc'); [lia|].
      exists st'. cbn [take]. rewrite Hd, E. auto.
    - intros u r st Hc _. exists 0. intros fuel' _. exists st. cbn. rewrite app_nil_r. auto.
    - intros id ids t ts Ht IH1 Hts IH2 u r st Hc [Hf1 Hf2]. cbn [flat_map] in *. rewrite <- app_assoc in Hc.
      destruct (IH1 u _ st Hc Hf1) as [fuel1 Hfuel1].
      destruct (Hfuel1 fuel1 (le_n _)) as (st1 & E1 & Hc1).
      destruct (IH2 _ r st1 Hc1 Hf2) as [fuel2 Hfuel2].
      exists (Nat.max fuel1 fuel2). intros fuel' Hle. destruct (Hfuel2 fuel') as (st2 & E2 & Hc2); [lia|].
      exists st2. cbn [take_seq]. rewrite (take_mono fuel1 fuel'); [|lia|rewrite E1; discriminate].
      rewrite E1, E2. split; [reflexivity|]. rewrite app_assoc. exact Hc2.
  Qed.

  (** ** Where a run stops *)
  Definition outcome_pos {A} (x : res A take_error) (p : linecol) : Prop :=
    match x with Err e => terr_pos e = p | _ => True end.

  Lemma consume_cursor s u w st : at_cursor u w st ->
    let '(x, st') := consume_str s st in
    exists v r, w = v ++ r /\ at_cursor (u ++ v) r st' /\ outcome_pos x (spec_pos (u ++ v) (hd_error r)) /\ x <> OutOfFuel
      /\ (x = Ok tt -> v = s).
  Proof.
    intros Hc. destruct (consume_loop_spec s s 0 u w st Hc) as (r' & Hr & Hx). cbv zeta in Hr, Hx.
    unfold consume_str. destruct (consume_loop s s 0 st) as [x st']. destruct Hx as [Hx1 Hx2].
    exists (lcp s w), r'. split; [exact Hr|]. split; [exact Hx1|].
    assert (Hp : iw_pos st' = spec_pos (u ++ lcp s w) (hd_error r')) by apply Hx1.
    assert (Hfull : length (lcp s w) = length s -> lcp s w = s).
    { intros E. rewrite (lcp_prefix s w), E. apply firstn_all. }
    destruct r' as [|c r'], (Nat.eqb_spec (length (lcp s w)) (length s)) as [E|E].
    - subst x. split; [exact I|]. split; [discriminate|]. auto.
    - subst x. split; [exact Hp|]. split; discriminate.
    - subst x. split; [exact I|]. split; [discriminate|]. auto.
    - destruct (byte_prefix s _); subst x; (split; [first [exact Hp|exact I]|]; split; discriminate).
  Qed.

  Definition sound_at (f : nat -> iw -> res tree take_error * iw) (id : nat) : Prop :=
    forall u w st, at_cursor u w st ->
    let '(x, st') := f id st in
    exists v r, w = v ++ r /\ at_cursor (u ++ v) r st' /\ outcome_pos x (spec_pos (u ++ v) (hd_error r))
      /\ (forall t, x = Ok t -> derives tab id t /\ v = yield t).

  Lemma take_seq_sound f ids : (forall id, In id ids -> sound_at f id) -> forall u w st, at_cursor u w st ->
    let '(x, st') := take_seq f ids st in
    exists v r, w = v ++ r /\ at_cursor (u ++ v) r st' /\ outcome_pos x (spec_pos (u ++ v) (hd_error r))
      /\ (forall ts, x = Ok ts -> derives_seq tab ids ts /\ v = flat_map yield ts).
  Proof.
    induction ids as [|id ids IH]; intros Hs u w st Hc; cbn [take_seq].
    - exists [], w. rewrite app_nil_r. split; [reflexivity|]. split; [exact Hc|]. split; [exact I|].
      intros ts E. injection E as <-. split; [constructor|reflexivity].
    - specialize (Hs id (or_introl eq_refl) u w st Hc) as H1. destruct (f id st) as [x st1].
      destruct H1 as (v & r & -> & Hc1 & Hp & Hok1).
      destruct x as [t|e| |].
      + destruct (Hok1 t eq_refl) as [Hd ->].
        specialize (IH (fun i Hi => Hs i (or_intror Hi)) _ _ _ Hc1). destruct (take_seq f ids st1) as [y st2].
        destruct IH as (v2 & r2 & -> & Hc2 & Hp2 & Hok2).
        exists (yield t ++ v2), r2. split; [apply app_assoc|]. rewrite app_assoc. split; [exact Hc2|].
        split; [destruct y; exact Hp2|]. intros ts E. destruct y as [ts'| | |]; try discriminate. injection E as <-.
        destruct (Hok2 ts' eq_refl) as [Hd2 ->]. split; [constructor; assumption|reflexivity].
      + exists v, r. split; [reflexivity|]. split; [exact Hc1|]. split; [exact Hp|discriminate].
      + exists v, r. split; [reflexivity|]. split; [exact Hc1|]. split; [exact I|discriminate].
      + exists v, r. split; [reflexivity|]. split; [exact Hc1|]. split; [exact I|discriminate].
  Qed.

  Theorem take_sound fuel : forall id, sound_at (take tab fuel) id.
  Proof.
    clear Hok. induction fuel as [|n IH]; intros id u w st Hc; cbn [take].
    { exists [], w. rewrite app_nil_r. split; [reflexivity|]. split; [exact Hc|]. split; [exact I|discriminate]. }
    assert (Hstop : forall st0, at_cursor u w st0 -> exists v r : rstr, w = v ++ r /\ at_cursor (u ++ v) r st0 /\ True /\
      (forall t, @Panic tree take_error = Ok t -> derives tab id t /\ v = yield t)).
    { intros st0 H0. exists [], w. rewrite app_nil_r. split; [reflexivity|]. split; [exact H0|]. split; [exact I|discriminate]. }
    destruct (def_of tab id) as [[|s c|nm p ids|p ids fs nl al c|[j|]|f]|] eqn:Ed; try (apply Hstop; exact Hc).
    - exists [], w. rewrite app_nil_r. split; [reflexivity|]. split; [exact Hc|]. split; [exact I|].
      intros t E. injection E as <-. split; [constructor; exact Ed|reflexivity].
    - pose proof (consume_cursor s u w st Hc) as Hx. destruct (consume_str s st) as [x st'].
      destruct Hx as (v & r & -> & Hc' & Hp & _ & Hv). exists v, r. split; [reflexivity|]. split; [exact Hc'|].
      split; [destruct x; exact Hp|]. intros t E. destruct x as [[]| | |]; try discriminate. injection E as <-.
      rewrite (Hv eq_refl). split; [econstructor; exact Ed|reflexivity].
    - pose proof (take_seq_sound (take tab n) ids (fun i _ => IH i) u w st Hc) as Hx.
      destruct (take_seq (take tab n) ids st) as [x st']. destruct Hx as (v & r & -> & Hc' & Hp & Hv).
      exists v, r. split; [reflexivity|]. split; [exact Hc'|]. split; [destruct x; exact Hp|].
      intros t E. destruct x as [ts| | |]; try discriminate. injection E as <-. destruct (Hv ts eq_refl) as [Hd ->].
      split; [econstructor; eauto|reflexivity].
    - destruct (peek_at _ _ _ Hc) as [P1 P2]. destruct (iw_peek st) as [q st1]. cbn in P1, P2.
      assert (Hbr : forall k, let '(x, st') := take_branch (take tab n) ids k st1 in
        exists v r, w = v ++ r /\ at_cursor (u ++ v) r st' /\ outcome_pos x (spec_pos (u ++ v) (hd_error r))
          /\ (forall t, x = Ok t -> derives tab id t /\ v = yield t)).
      { intros k. unfold take_branch. destruct (nth_error ids k) as [j|] eqn:Ek; [|apply Hstop; exact P2].
        pose proof (IH j u w st1 P2) as Hx. destruct (take tab n j st1) as [x st'].
        destruct Hx as (v & r & -> & Hc' & Hp & Hv). exists v, r. split; [reflexivity|]. split; [exact Hc'|].
        split; [destruct x; exact Hp|]. intros t E. destruct x as [t'| | |]; try discriminate. injection E as <-.
        destruct (Hv t' eq_refl) as [Hd ->]. split; [econstructor; eauto|reflexivity]. }
      destruct (match q with Some c0 => pick_arm c0 fs | None => None end) as [k|]; [apply Hbr|].
      destruct nl as [k|]; [apply Hbr|]. subst q.
      destruct (hd_error w) as [ch|] eqn:Ew; exists [], w; rewrite app_nil_r; (split; [reflexivity|]; split; [exact P2|]; split; [|discriminate]).
      + cbn. unfold iw_pos. rewrite (proj2 P2), Ew. reflexivity.
      + cbn. unfold iw_pos. rewrite (proj2 P2), Ew. reflexivity.
    - pose proof (IH j u w st Hc) as Hx. destruct (take tab n j st) as [x st'].
      destruct Hx as (v & r & -> & Hc' & Hp & Hv). exists v, r. split; [reflexivity|]. split; [exact Hc'|]. split; [exact Hp|].
      intros t E. destruct (Hv t E) as [Hd ->]. split; [eapply derives_fix; eauto|reflexivity].
    - pose proof (IH f u w st Hc) as Hx. destruct (take tab n f st) as [x st'].
      destruct Hx as (v & r & -> & Hc' & Hp & Hv). exists v, r. split; [reflexivity|]. split; [exact Hc'|].
      split; [destruct x; exact Hp|]. intros t E. destruct x as [t'| | |]; try discriminate. injection E as <-.
      destruct (Hv t' eq_refl) as [Hd ->]. split; [eapply derives_box; eauto|reflexivity].
  Qed.
End Table.
