(** * TypeFacts: [Types] against the specification types. *)
From Verif Require Export SetFacts Erase.

Lemma ty_eqb_eq a b : ty_eqb a b = true <-> a = b.
Proof.
  unfold ty_eqb. destruct a as [n f l], b as [n' f' l']; cbn [nullable first_set flast_set].
  rewrite !andb_true_iff, !cset_eqb_eq, Bool.eqb_true_iff. split.
  - intros [[-> ->] ->]. reflexivity.
  - intros H. injection H as -> -> ->. auto.
Qed.

Lemma st_le_refl a : st_le a a.
Proof. repeat split; auto. Qed.
Lemma st_le_trans a b c : st_le a b -> st_le b c -> st_le a c.
Proof. intros (H1 & H2 & H3) (H4 & H5 & H6). repeat split; auto. Qed.
Lemma st_eq_refl a : st_eq a a.
Proof. split; apply st_le_refl. Qed.
Lemma st_eq_sym a b : st_eq a b -> st_eq b a.
Proof. intros [H1 H2]. split; auto. Qed.
Lemma st_eq_trans a b c : st_eq a b -> st_eq b c -> st_eq a c.
Proof. intros [H1 H2] [H3 H4]. split; eapply st_le_trans; eauto. Qed.

Lemma st_cat_mono a a' b b' : st_le a a' -> st_le b b' -> st_le (st_cat a b) (st_cat a' b').
Proof.
  intros (H1 & H2 & H3) (H4 & H5 & H6). unfold st_cat, st_le; cbn [s_null s_first s_flast].
  firstorder.
Qed.
Lemma st_alt_mono a a' b b' : st_le a a' -> st_le b b' -> st_le (st_alt a b) (st_alt a' b').
Proof.
  intros (H1 & H2 & H3) (H4 & H5 & H6). unfold st_alt, st_le; cbn [s_null s_first s_flast].
  firstorder.
Qed.
Lemma st_cat_eq a a' b b' : st_eq a a' -> st_eq b b' -> st_eq (st_cat a b) (st_cat a' b').
Proof. intros [H1 H2] [H3 H4]. split; apply st_cat_mono; auto. Qed.
Lemma st_alt_eq a a' b b' : st_eq a a' -> st_eq b b' -> st_eq (st_alt a b) (st_alt a' b').
Proof. intros [H1 H2] [H3 H4]. split; apply st_alt_mono; auto. Qed.

Lemma separable_anti a a' b b' : st_le a a' -> st_le b b' -> separable a' b' -> separable a b.
Proof. intros (H1 & H2 & H3) (H4 & H5 & H6) [H7 H8]. split; firstorder. Qed.
Lemma apart_anti a a' b b' : st_le a a' -> st_le b b' -> apart a' b' -> apart a b.
Proof. intros (H1 & H2 & H3) (H4 & H5 & H6) [H7 H8]. split; firstorder. Qed.

Lemma st_eq_intro a b : (s_null a <-> s_null b) -> (forall c, s_first a c <-> s_first b c) ->
  (forall c, s_flast a c <-> s_flast b c) -> st_eq a b.
Proof. intros H1 H2 H3. split; (split; [|split]); firstorder. Qed.

Lemma st_of_eps : st_eq (st_of ty_eps) st_eps.
Proof. apply st_eq_intro; cbn; tauto. Qed.

Lemma st_of_str s : st_eq (st_of (ty_of_str s)) (st_lit s).
Proof.
  apply st_eq_intro; cbn; [|intros c|tauto].
  - destruct s; split; (reflexivity || discriminate).
  - apply cset_of_str_In.
Qed.

Lemma st_of_cat a b : st_eq (st_of (ty_cat a b)) (st_cat (st_of a) (st_of b)).
Proof.
  destruct a as [na fa la], b as [nb fb lb].
  apply st_eq_intro; cbn [st_of ty_cat nullable first_set flast_set s_null s_first s_flast st_cat].
  - apply andb_true_iff.
  - intros c. destruct na; [rewrite cset_union_In|]; intuition auto; discriminate.
  - intros c. destruct nb; rewrite ?cset_union_In; intuition auto; discriminate.
Qed.

Lemma st_of_alt a b : st_eq (st_of (ty_alt a b)) (st_alt (st_of a) (st_of b)).
Proof.
  destruct a as [na fa la], b as [nb fb lb].
  apply st_eq_intro; cbn [st_of ty_alt nullable first_set flast_set s_null s_first s_flast st_alt].
  - apply orb_true_iff.
  - intros c. apply cset_union_In.
  - intros c. apply cset_union_In.
Qed.

Lemma st_of_default_le s : st_le (st_of ty_default) s.
Proof. repeat split; cbn; try tauto. discriminate. Qed.

(** Sorted types. *)
Definition ty_ok (t : ty) : Prop := cset_ok (first_set t) /\ cset_ok (flast_set t).

Lemma ty_ok_eps : ty_ok ty_eps.
Proof. split; apply cset_ok_nil. Qed.
Lemma ty_ok_default : ty_ok ty_default.
Proof. split; apply cset_ok_nil. Qed.
Lemma ty_ok_str s : ty_ok (ty_of_str s).
Proof. split; [apply cset_of_str_ok|apply cset_ok_nil]. Qed.
Lemma ty_ok_cat a b : ty_ok a -> ty_ok b -> ty_ok (ty_cat a b).
Proof.
  intros [H1 H2] [H3 H4]. split; cbn.
  - destruct (nullable a); auto. apply cset_union_ok; auto.
  - destruct (nullable b); auto. apply cset_union_ok, cset_union_ok; auto.
Qed.
Lemma ty_ok_alt a b : ty_ok a -> ty_ok b -> ty_ok (ty_alt a b).
Proof. intros [H1 H2] [H3 H4]. split; cbn; apply cset_union_ok; auto. Qed.

(** Types over a finite set of characters. *)
Definition ty_in (S : list char) (t : ty) : Prop := incl (first_set t) S /\ incl (flast_set t) S.

Lemma ty_in_eps S : ty_in S ty_eps.
Proof. split; intros c []. Qed.
Lemma ty_in_default S : ty_in S ty_default.
Proof. split; intros c []. Qed.
Lemma ty_in_str S s : incl s S -> ty_in S (ty_of_str s).
Proof.
  intros H. split; cbn; [|intros c []].
  intros c Hc. apply cset_of_str_In in Hc as (w & ->). apply H. left. reflexivity.
Qed.
Lemma ty_in_cat S a b : ty_in S a -> ty_in S b -> ty_in S (ty_cat a b).
Proof.
  intros [H1 H2] [H3 H4]. split; cbn.
  - destruct (nullable a); auto. intros c Hc. apply cset_union_In in Hc as [Hc|Hc]; auto.
  - destruct (nullable b); auto. intros c Hc.
    rewrite !cset_union_In in Hc. destruct Hc as [[Hc|Hc]|Hc]; auto.
Qed.
Lemma ty_in_alt S a b : ty_in S a -> ty_in S b -> ty_in S (ty_alt a b).
Proof.
  intros [H1 H2] [H3 H4]. split; cbn; intros c Hc; apply cset_union_In in Hc as [Hc|Hc]; auto.
Qed.

(** A measure that grows with the type. *)
Definition ty_size (t : ty) : nat :=
  (if nullable t then 1 else 0) + length (first_set t) + length (flast_set t).

Lemma ty_size_bound S t : ty_ok t -> ty_in S t -> ty_size t <= 2 * length S + 1.
Proof.
  intros [H1 H2] [H3 H4]. unfold ty_size.
  apply (cset_incl_length _ _ H1) in H3. apply (cset_incl_length _ _ H2) in H4.
  destruct (nullable t); lia.
Qed.

Lemma ty_size_lt a b : ty_ok a -> ty_ok b -> st_le (st_of a) (st_of b) -> ty_eqb a b = false ->
  ty_size a < ty_size b.
Proof.
  intros [Ha1 Ha2] [Hb1 Hb2] (H1 & H2 & H3) Hne. cbn in H1, H2, H3.
  unfold ty_size.
  pose proof (cset_incl_length _ (first_set b) Ha1 H2) as L1.
  pose proof (cset_incl_length _ (flast_set b) Ha2 H3) as L2.
  destruct (Nat.lt_ge_cases (ty_size a) (ty_size b)) as [|Hge]; [assumption|exfalso].
  unfold ty_size in Hge.
  assert (Hn : nullable a = nullable b).
  { destruct (nullable a) eqn:Ea, (nullable b) eqn:Eb; auto.
    - specialize (H1 eq_refl). discriminate.
    - lia. }
  rewrite Hn in Hge.
  assert (E1 : first_set a = first_set b) by (apply cset_incl_eq; auto; lia).
  assert (E2 : flast_set a = flast_set b) by (apply cset_incl_eq; auto; lia).
  assert (a = b) by (destruct a, b; cbn in *; congruence).
  subst b. rewrite (proj2 (ty_eqb_eq a a) eq_refl) in Hne. discriminate.
Qed.
