(** * ExpectFacts: the characters an error lists. *)
From Verif Require Export ReportFacts ViableFacts.
From Coq Require Import List NArith Lia Sorted.
Open Scope list_scope.

Lemma NoDup_app_intro {A} (l m : list A) : NoDup l -> NoDup m -> (forall x, In x l -> In x m -> False) -> NoDup (l ++ m).
Proof.
  induction 1 as [| x l Hx Hl IH]; intros Hm H; cbn [app]; [exact Hm |]. constructor.
  - intros K. apply in_app_or in K as [K | K]; [contradiction | exact (H x (or_introl eq_refl) K)].
  - apply IH; [exact Hm |]. intros y Hy. apply H. now right.
Qed.
Section Expect.
  Variable tab : table.
  Variable tau : nat -> ty.
  Hypothesis Hok : forall id, id < length tab -> flat_ok tab tau id.
  Hypothesis Hleft : left_wf tab.

  (** Every type has the empty word or a first character. *)
  Lemma first_some id : id < length tab -> nullable (tau id) = true \/ first_set (tau id) <> [].
  Proof.
    induction (Hleft id) as [id _ IH]. intros Hid. pose proof (Hok id Hid) as F. unfold flat_ok in F. unfold lefts in IH.
    destruct (def_of tab id) as [[|s cv|nm p ids|p ids fs nl al cv|[j|]|f]|] eqn:Ed; try contradiction.
    - rewrite F. now left.
    - rewrite F. destruct s as [| d s]; [now left |]. right. discriminate.
    - destruct F as [F Hlt]. destruct ids as [| x xs]; [contradiction |]. destruct F as [Hn Hs]. apply Forall_cons_iff in Hlt as [Hx Hxs].
      destruct (IH x (or_introl eq_refl) Hx) as [K | K]; [congruence |]. destruct (seq_ok_first tau _ _ _ Hs Hn) as [_ E].
      right. intros Z. destruct (first_set (tau x)) as [| c l] eqn:Ex; [congruence |]. specialize (E c). rewrite Z in E. destruct E as [_ E]. destruct (E (or_introl eq_refl)).
    - destruct F as (F & Hlt & _). destruct ids as [| x xs]; [contradiction |]. apply Forall_cons_iff in Hlt as [Hx Hxs].
      destruct (alt_ok_sets tau _ _ _ F) as (A & B & _).
      destruct (IH x (or_introl eq_refl) Hx) as [K | K].
      + left. apply A. auto.
      + right. intros Z. destruct (first_set (tau x)) as [| c l] eqn:Ex; [congruence |]. specialize (B c). rewrite Z in B. destruct B as [_ B]. apply B. left. now left.
    - destruct F as [F Hj]. rewrite F. apply IH; [now left | exact Hj].
    - destruct F as [F Hf]. rewrite F. apply IH; [now left | exact Hf].
  Qed.
  (** First sets are in order. *)
  Lemma seq_ok_sorted t xs t' : seq_ok tau t xs t' -> nullable t = false -> cset_ok (first_set t) -> cset_ok (first_set t').
  Proof. induction 1 as [t | t x xs t' Hd Hs IH]; intros Hn H; [exact H |]. apply IH; cbn; rewrite Hn; auto. Qed.
  Lemma alt_ok_sorted t xs t' : alt_ok tau t xs t' -> cset_ok (first_set t) -> cset_ok (first_set t').
  Proof. induction 1 as [t | t x xs t' Hn Hd Hs IH]; intros H; [exact H |]. apply IH. cbn. now apply cset_union_ok. Qed.
  Lemma first_sorted id : id < length tab -> cset_ok (first_set (tau id)).
  Proof.
    induction (Hleft id) as [id _ IH]. intros Hid. pose proof (Hok id Hid) as F. unfold flat_ok in F. unfold lefts in IH.
    destruct (def_of tab id) as [[|s cv|nm p ids|p ids fs nl al cv|[j|]|f]|] eqn:Ed; try contradiction.
    - rewrite F. apply cset_ok_nil.
    - rewrite F. apply cset_of_str_ok.
    - destruct F as [F Hlt]. destruct ids as [| x xs]; [contradiction |]. destruct F as [Hn Hs]. apply Forall_cons_iff in Hlt as [Hx Hxs].
      eapply seq_ok_sorted; eauto. apply IH; [now left | exact Hx].
    - destruct F as (F & Hlt & _). destruct ids as [| x xs]; [contradiction |]. apply Forall_cons_iff in Hlt as [Hx Hxs].
      eapply alt_ok_sorted; eauto. apply IH; [now left | exact Hx].
    - destruct F as [F Hj]. rewrite F. apply IH; [now left | exact Hj].
    - destruct F as [F Hf]. rewrite F. apply IH; [now left | exact Hf].
  Qed.
  Lemma flat_nodup (f : nat -> list char) ids : (forall j, In j ids -> NoDup (f j)) ->
    (forall k k' j j', nth_error ids k = Some j -> nth_error ids k' = Some j' -> k <> k' -> disj (f j) (f j')) -> NoDup (flat_map f ids).
  Proof.
    induction ids as [| x ids IH]; intros H1 H2; cbn [flat_map]; [constructor |]. apply NoDup_app_intro.
    - apply H1. now left.
    - apply IH; [intros j Hj; apply H1; now right |]. intros k k' j j' Hk Hk' Hne. apply (H2 (S k) (S k') j j' Hk Hk'). congruence.
    - intros c Hc Hd. apply in_flat_map in Hd as (j & Hj & Hd). apply In_nth_error in Hj as [k Hk]. exact (H2 0 (S k) x j eq_refl Hk (O_S k) c Hc Hd).
  Qed.

  Definition told (x : take_error) : Prop := match x with BadBranch _ c l => l <> [] /\ NoDup l /\ ~ In c l | _ => True end.
  Lemma consume_told s st x st' : consume_str s st = (Err x, st') -> told x.
  Proof.
    unfold consume_str. generalize s at 2. generalize 0. intros k cs. revert k st. induction cs as [| e cs IH]; intros k st E; cbn [consume_loop] in E; [discriminate E |].
    destruct (iw_peek st) as [[c |] st1]; [destruct (c =? e)%N; [eauto | destruct (byte_prefix s k); [| discriminate E]] |]; now injection E as <- _.
  Qed.
  Lemma take_seq_told f ids : (forall id st x st', In id ids -> f id st = (Err x, st') -> told x) -> forall st x st', take_seq f ids st = (Err x, st') -> told x.
  Proof.
    induction ids as [| i ids IH]; intros H st x st' E; cbn [take_seq] in E; [discriminate E |].
    destruct (f i st) as [[v | y | |] st1] eqn:E1; try discriminate E.
    - destruct (take_seq f ids st1) as [[vs | y | |] st2] eqn:E2; cbn in E; try discriminate E. injection E as -> ->. eapply IH; [| exact E2]. intros i' st3 y' st4 Hi E'; apply (H i' st3 y' st4); [now right | exact E'].
    - injection E as -> ->. eapply (H i); [now left | exact E1].
  Qed.
  Theorem take_told fuel : forall id st x st', id < length tab -> take tab fuel id st = (Err x, st') -> told x.
  Proof.
    induction fuel as [| n IH]; intros id st x st' Hid E; cbn [take] in E; [discriminate |].
    pose proof (Hok id Hid) as F. unfold flat_ok in F. destruct (def_of tab id) as [[|s c|nm p ids|p ids fs nl al c|[j|]|f]|] eqn:Ed; try discriminate.
    - destruct (consume_str s st) as [[[] | y | |] st1] eqn:E1; try discriminate. cbn in E. injection E as -> ->. now apply consume_told in E1.
    - destruct F as [_ Hlt]. destruct (take_seq (take tab n) ids st) as [[ts | y | |] st1] eqn:E1; try discriminate. cbn in E. injection E as -> ->.
      eapply take_seq_told; [| exact E1]. intros i st2 y st3 Hi. apply IH. rewrite Forall_forall in Hlt. now apply Hlt.
    - destruct F as (Ha & Hlt & -> & -> & ->). destruct ids as [| i0 is]; [contradiction |].
      pose proof (alts_pair tau i0 is _ Ha) as Hpair.
      assert (Hpick : forall c0, match pick_arm c0 (first_arms 0 (map tau (i0 :: is))) with Some k => exists k0 j, k = 0 + k0 /\ nth_error (i0 :: is) k0 = Some j /\ In c0 (first_set (tau j)) | None => forall j, In j (i0 :: is) -> ~ In c0 (first_set (tau j)) end).
      { intros c0. apply pick_arm_spec. intros k k' j j' H1 H2 H3. apply (Hpair k k' j j' H1 H2 H3). }
      pose proof (find_nullable_spec tau (i0 :: is) 0) as Hnull. rewrite Forall_forall in Hlt.
      destruct (iw_peek st) as [q st1].
      assert (Hbr : forall k, take_branch (take tab n) (i0 :: is) k st1 = (Err x, st') -> told x).
      { intros k Eb. unfold take_branch in Eb. destruct (nth_error (i0 :: is) k) as [j|] eqn:Ek; [|discriminate]. destruct (take tab n j st1) as [[t | y | |] st2] eqn:E1; try discriminate. cbn in Eb. injection Eb as -> ->.
        eapply IH; [| exact E1]. apply Hlt. now apply nth_error_In in Ek. }
      destruct q as [ch |].
      + specialize (Hpick ch). destruct (pick_arm ch _) as [k |]; [eauto |]. destruct (find_nullable 0 _) as [k |]; [eauto |]. injection E as <- <-. cbn [told]. split; [| split].
        * intros Z. destruct (first_some i0 (Hlt i0 (or_introl eq_refl))) as [K | K]; [rewrite (Hnull i0 (or_introl eq_refl)) in K; discriminate |].
          cbn [flat_map] in Z. apply app_eq_nil in Z as [Z _]. contradiction.
        * apply (flat_nodup (fun j => first_set (tau j)) (i0 :: is)); [intros j Hj; apply cset_ok_NoDup, first_sorted; auto | intros; eapply Hpair; eauto].
        * intros Hin. change (In ch (flat_map (fun j => first_set (tau j)) (i0 :: is))) in Hin. apply in_flat_map in Hin as (j & Hj & Hd). exact (Hpick j Hj Hd).
      + destruct (find_nullable 0 _) as [k |]; [eauto |]. injection E as <- _. exact Logic.I.
    - destruct F as [_ Hj]. eauto.
    - destruct F as [_ Hf]. destruct (take tab n f st) as [[t | y | |] st1] eqn:E1; try discriminate. cbn in E. injection E as -> ->. eauto.
  Qed.
End Expect.
