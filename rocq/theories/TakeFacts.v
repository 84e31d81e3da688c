(** * TakeFacts: when [take] succeeds on the front of a text. *)
From Verif Require Export ViableFacts.
From Coq Require Import List Lia.

Section TakeReads.
  Variable tab : table.
  Variable tau : nat -> ty.
  Hypothesis Hok : forall id, id < length tab -> flat_ok tab tau id.
  Hypothesis Hleft : left_wf tab.
  Hypothesis Hinh : forall id, id < length tab -> exists t, derives tab id t.

  Definition no_more (W : rstr -> Prop) (w r : rstr) : Prop := forall c z, hd_error r = Some c -> ~ W (w ++ c :: z).

  Theorem take_reads :
    (forall id t, derives tab id t -> forall u r st, at_cursor u (yield t ++ r) st -> no_more (words tab id) (yield t) r ->
       exists fuel, forall fuel', fuel <= fuel' -> exists st', take tab fuel' id st = (Ok t, st') /\ at_cursor (u ++ yield t) r st')
    /\
    (forall ids ts, derives_seq tab ids ts -> forall u r st,
       at_cursor u (flat_map yield ts ++ r) st -> seq_follows tau ids ts [] -> no_more (words_seq tab ids) (flat_map yield ts) r ->
       exists fuel, forall fuel', fuel <= fuel' -> exists st', take_seq (take tab fuel') ids st = (Ok ts, st')
         /\ at_cursor (u ++ flat_map yield ts) r st').
  Proof.
    apply derives_mutind.
    - intros id Hd u r st Hc _. exists 1. intros [|n] Hf; [lia|]. exists st. cbn. rewrite Hd, app_nil_r. split; [reflexivity|exact Hc].
    - intros id s c Hd u r st Hc _. exists 1. intros [|n] Hf; [lia|]. cbn [take]. rewrite Hd.
      destruct (take_lit_ok s u r st Hc) as (st' & E & Hc'). exists st'. rewrite E. auto.
    - intros id nm p ids ts Hd Hs IH u r st Hc Hno. cbn [yield] in *.
      destruct (cat_follows tab tau Hok _ _ _ _ _ [] Hd Hs) as [Hf _]; [intros d Hd'; discriminate |].
      destruct (IH u r st Hc Hf) as [fuel Hfuel].
      { intros c z Hz (ts' & D & Y). apply (Hno c z Hz). exists (NCat ts'). split; [eapply derives_cat; eauto | exact Y]. }
      exists (S fuel). intros [|n] Hle; [lia|].
      destruct (Hfuel n) as (st' & E & Hc'); [lia|]. exists st'. cbn [take]. rewrite Hd, E. auto.
    - intros id p ids fs nl al cv k j t Hd Hk Ht IH u r st Hc Hno. pose proof (def_ok tab tau Hok _ _ Hd) as H. unfold flat_ok in H. rewrite Hd in H.
      destruct H as (H & Hlt & -> & -> & _). destruct ids as [|x xs]; [contradiction|].
      pose proof (alts_pair _ _ _ _ H) as Hpair.
      cbn [yield] in *. pose proof (proj1 (derives_starts tab tau Hok) _ _ Ht) as Hst.
      destruct (peek_at _ _ _ Hc) as [P1 P2].
      destruct (IH u r (snd (iw_peek st)) P2) as [fuel Hfuel].
      { intros c z Hz (t' & D & Y). apply (Hno c z Hz). exists (NAlt k t'). split; [eapply derives_alt; eauto | exact Y]. }
      exists (S fuel). intros [|n] Hle; [lia|]. destruct (Hfuel n) as (st' & E & Hc'); [lia|].
      exists st'. split; [|exact Hc']. cbn [take]. rewrite Hd.
      destruct (iw_peek st) as [q st1]. cbn in P1, P2, E. subst q.
      assert (Hbr : take_branch (take tab n) (x :: xs) k st1 = (Ok (NAlt k t), st')).
      { unfold take_branch. rewrite Hk, E. reflexivity. }
      assert (Hpk : forall ch, match pick_arm ch (first_arms 0 (map tau (x :: xs))) with
        | Some k0 => exists j, nth_error (x :: xs) k0 = Some j /\ In ch (first_set (tau j))
        | None => forall j, In j (x :: xs) -> ~ In ch (first_set (tau j)) end).
      { intros ch. pose proof (pick_arm_spec tau ch (x :: xs)) as Hp.
        specialize (Hp (fun k k' j j' Hk Hk' Hne => proj2 (Hpair k k' j j' Hk Hk' Hne)) 0).
        destruct (pick_arm ch _); [|exact Hp]. destruct Hp as (k0 & j0 & -> & ? & ?). eauto. }
      destruct (yield t) as [|ch w] eqn:Ey.
      + cbn [app] in *. unfold starts in Hst.
        assert (Hnone : match hd_error r with Some ch => pick_arm ch (first_arms 0 (map tau (x :: xs))) | None => None end = None).
        { destruct (hd_error r) as [ch|] eqn:Er; [|reflexivity]. specialize (Hpk ch).
          destruct (pick_arm ch _) as [k0|]; [|reflexivity]. exfalso. destruct Hpk as (j0 & Hj0 & Hin).
          destruct (first_real tab tau Hok Hleft Hinh j0) with (c := ch) as (t' & z & D & Y); [rewrite Forall_forall in Hlt; apply Hlt; now apply nth_error_In in Hj0 | exact Hin |].
          apply (Hno ch z Er). exists (NAlt k0 t'). split; [eapply derives_alt; eauto | exact Y]. }
        rewrite Hnone. pose proof (find_nullable_spec tau (x :: xs) 0) as Hn.
        destruct (find_nullable 0 (map tau (x :: xs))) as [k0|].
        * destruct Hn as (k1 & j0 & E1 & Hj0 & Hn0). cbn in E1. subst k1.
          destruct (Nat.eq_dec k0 k) as [->|Hne]; [exact Hbr|]. exfalso.
          apply (proj1 (Hpair k0 k j0 j Hj0 Hk Hne)). auto.
        * exfalso. rewrite (Hn j) in Hst; [discriminate|eapply nth_error_In; eauto].
      + cbn [app hd_error]. specialize (Hpk ch). unfold starts in Hst.
        destruct (pick_arm ch _) as [k0|].
        * destruct Hpk as (j0 & Hj0 & Hin). destruct (Nat.eq_dec k0 k) as [->|Hne]; [exact Hbr|]. exfalso.
          apply (proj2 (Hpair k0 k j0 j Hj0 Hk Hne) ch); auto.
        * exfalso. apply (Hpk j); [eapply nth_error_In; eauto|exact Hst].
    - intros id j t Hd Ht IH u r st Hc Hno.
      destruct (IH u r st Hc) as [fuel Hfuel].
      { intros c z Hz (t' & D & Y). apply (Hno c z Hz). exists t'. split; [eapply derives_fix; eauto | exact Y]. }
      exists (S fuel). intros [|n] Hle; [lia|]. destruct (Hfuel n) as (st' & E & Hc'); [lia|].
      exists st'. cbn [take]. rewrite Hd. auto.
    - intros id f t Hd Ht IH u r st Hc Hno. cbn [yield] in *.
      destruct (IH u r st Hc) as [fuel Hfuel].
      { intros c z Hz (t' & D & Y). apply (Hno c z Hz). exists (NBox t'). split; [eapply derives_box; eauto | exact Y]. }
      exists (S fuel). intros [|n] Hle; [lia|]. destruct (Hfuel n) as (st' & E & Hc'); [lia|].
      exists st'. cbn [take]. rewrite Hd, E. auto.
    - intros u r st Hc _ _. exists 0. intros fuel' _. exists st. cbn. rewrite app_nil_r. auto.
    - intros id ids t ts Ht IH1 Hts IH2 u r st Hc [Hf1 Hf2] Hno. cbn [flat_map] in *. rewrite <- app_assoc in Hc.
      assert (K : exists fuel, forall fuel', fuel <= fuel' -> exists st', take tab fuel' id st = (Ok t, st') /\ at_cursor (u ++ yield t) (flat_map yield ts ++ r) st').
      { destruct (flat_map yield ts) as [| d w] eqn:Ets.
        - apply IH1; [exact Hc |]. intros c z Hz (t' & D & Y). apply (Hno c z Hz). exists (t' :: ts). split; [now constructor |]. cbn. now rewrite Ets, !app_nil_r.
        - apply (proj1 (take_complete tab tau Hok) id t Ht u _ st Hc). intros c Hcc. cbn in Hcc. apply Hf1. exact Hcc. }
      destruct K as [fuel1 Hfuel1].
      destruct (Hfuel1 fuel1 (le_n _)) as (st1 & E1 & Hc1).
      destruct (IH2 _ r st1 Hc1 Hf2) as [fuel2 Hfuel2].
      { intros c z Hz (ts' & D & Y). apply (Hno c z Hz). exists (t :: ts'). split; [now constructor |]. cbn. now rewrite Y, app_assoc. }
      exists (Nat.max fuel1 fuel2). intros fuel' Hle. destruct (Hfuel2 fuel') as (st2 & E2 & Hc2); [lia|].
      exists st2. cbn [take_seq]. rewrite (take_mono tab fuel1 fuel'); [|lia|rewrite E1; discriminate].
      rewrite E1, E2. split; [reflexivity|]. rewrite app_assoc. exact Hc2.
  Qed.
End TakeReads.
