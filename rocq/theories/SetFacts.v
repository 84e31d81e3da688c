(** * SetFacts: [Sets] implements mathematical sets of characters. *)
From Coq Require Import Sorted.
From Verif Require Export Sets.

Definition cset_ok (s : cset) : Prop := StronglySorted N.lt s.

Lemma cset_mem_In c s : cset_mem c s = true <-> In c s.
Proof.
  unfold cset_mem. rewrite existsb_exists. split.
  - intros (x & Hx & He). apply N.eqb_eq in He. subst. exact Hx.
  - intros H. exists c. split; [exact H|apply N.eqb_refl].
Qed.

Lemma cset_insert_In c d s : In d (cset_insert c s) <-> d = c \/ In d s.
Proof.
  induction s as [|x s IH]; cbn [cset_insert In].
  - intuition.
  - destruct (N.compare_spec c x) as [He|Hl|Hg]; subst; cbn [In]; [|intuition|rewrite IH; intuition].
    intuition.
Qed.

Lemma cset_union_In d s t : In d (cset_union s t) <-> In d s \/ In d t.
Proof.
  unfold cset_union. revert s; induction t as [|x t IH]; intros s; cbn [fold_left In].
  - intuition.
  - rewrite IH, cset_insert_In. intuition.
Qed.

Lemma cset_inter_In d s t : In d (cset_inter s t) <-> In d s /\ In d t.
Proof. unfold cset_inter. rewrite filter_In, cset_mem_In. reflexivity. Qed.

Lemma cset_disjoint_spec s t : cset_disjoint s t = true <-> (forall c, In c s -> In c t -> False).
Proof.
  unfold cset_disjoint. destruct (cset_inter s t) as [|x l] eqn:E; split; intros H; try reflexivity; try discriminate.
  - intros c Hs Ht. assert (Hi : In c (cset_inter s t)) by (apply cset_inter_In; auto). rewrite E in Hi. exact Hi.
  - exfalso. assert (Hi : In x (cset_inter s t)) by (rewrite E; left; reflexivity).
    apply cset_inter_In in Hi as [H1 H2]. eauto.
Qed.

Lemma cset_is_empty_spec s : cset_is_empty s = true <-> (forall c, ~ In c s).
Proof.
  destruct s as [|x s]; simpl; split; intros H; try congruence; auto.
  exfalso. apply (H x). left. reflexivity.
Qed.

Lemma cset_of_str_In c s : In c (cset_of_str s) <-> exists w, s = c :: w.
Proof.
  destruct s as [|x s]; simpl.
  - split; [tauto|intros (w & H); discriminate].
  - split.
    + intros [H|[]]. subst. eauto.
    + intros (w & H). injection H as -> _. left. reflexivity.
Qed.

Lemma cset_ok_nil : cset_ok [].
Proof. constructor. Qed.

Lemma cset_insert_ok c s : cset_ok s -> cset_ok (cset_insert c s).
Proof.
  unfold cset_ok. induction s as [|x s IH]; intros H; cbn [cset_insert].
  - repeat constructor.
  - inversion H as [|? ? Hs Hx]; subst.
    destruct (N.compare_spec c x) as [He|Hl|Hg].
    + exact H.
    + constructor; [exact H|]. constructor; [exact Hl|].
      eapply Forall_impl; [|exact Hx]. intros a Ha. cbn in Ha. lia.
    + constructor; [apply IH; exact Hs|].
      rewrite Forall_forall in *. intros a Ha. apply cset_insert_In in Ha as [->|Ha]; [exact Hg|auto].
Qed.

Lemma cset_union_ok s t : cset_ok s -> cset_ok (cset_union s t).
Proof.
  unfold cset_union. revert s; induction t as [|x t IH]; intros s H; cbn [fold_left]; [exact H|].
  apply IH. apply cset_insert_ok. exact H.
Qed.

Lemma cset_of_str_ok s : cset_ok (cset_of_str s).
Proof. destruct s; simpl; repeat constructor. Qed.

Lemma cset_ok_NoDup s : cset_ok s -> NoDup s.
Proof.
  induction s as [|x s IH]; intros H; constructor; inversion H as [|? ? Hs Hx]; subst.
  - intros Hin. rewrite Forall_forall in Hx. apply Hx in Hin. lia.
  - apply IH. exact Hs.
Qed.

(** Sets with the same elements are represented by the same list. *)
Lemma cset_ext s t : cset_ok s -> cset_ok t -> (forall c, In c s <-> In c t) -> s = t.
Proof.
  unfold cset_ok. revert t; induction s as [|x s IH]; intros [|y t] Hs Ht H.
  - reflexivity.
  - exfalso. apply (proj2 (H y)). left. reflexivity.
  - exfalso. apply (proj1 (H x)). left. reflexivity.
  - inversion Hs as [|? ? Hs1 Hs2]; inversion Ht as [|? ? Ht1 Ht2]; subst.
    rewrite Forall_forall in Hs2, Ht2.
    assert (x = y).
    { destruct (proj1 (H x) (or_introl eq_refl)) as [E|E]; [auto|].
      destruct (proj2 (H y) (or_introl eq_refl)) as [E'|E']; [auto|].
      apply Ht2 in E. apply Hs2 in E'. lia. }
    subst y. f_equal. apply IH; auto.
    intros c. split; intros Hc.
    + destruct (proj1 (H c) (or_intror Hc)) as [E|E]; [|exact E].
      subst c. apply Hs2 in Hc. lia.
    + destruct (proj2 (H c) (or_intror Hc)) as [E|E]; [|exact E].
      subst c. apply Ht2 in Hc. lia.
Qed.

Lemma cset_eqb_eq s t : cset_eqb s t = true <-> s = t.
Proof. apply rstr_eqb_eq. Qed.

Lemma cset_eqb_ext s t : cset_ok s -> cset_ok t -> (cset_eqb s t = true <-> (forall c, In c s <-> In c t)).
Proof.
  intros Hs Ht. rewrite cset_eqb_eq. split; [intros ->; reflexivity|apply cset_ext; assumption].
Qed.

Lemma cset_incl_length s t : cset_ok s -> incl s t -> length s <= length t.
Proof. intros Hs Hi. apply NoDup_incl_length; [apply cset_ok_NoDup; exact Hs|exact Hi]. Qed.

Lemma cset_incl_eq s t : cset_ok s -> cset_ok t -> incl s t -> length t <= length s -> s = t.
Proof.
  intros Hs Ht Hi Hl. apply cset_ext; auto. intros c. split; [apply Hi|].
  apply (NoDup_length_incl (cset_ok_NoDup _ Hs) Hl Hi).
Qed.
