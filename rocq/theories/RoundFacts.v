(** * RoundFacts: the loop of a fixed point settles in three rounds. *)
From Verif Require Export InferFacts InferMore.
From Coq Require Import List Lia.
Import ListNotations.

(** [a] is at most [b], but for the characters in [D]. *)
Definition le_by (D : char -> Prop) (a b : stype) : Prop :=
  (s_null a -> s_null b)
  /\ (forall c, s_first a c -> s_first b c \/ D c)
  /\ (forall c, s_flast a c -> s_flast b c \/ D c).
Lemma le_by_refl D a : le_by D a a.
Proof. repeat split; auto. Qed.
Lemma le_by_le D a b : st_le a b -> le_by D a b.
Proof. intros (H1 & H2 & H3). repeat split; auto. Qed.
Lemma le_by_trans D a a' b b' : st_le a' a -> st_le b b' -> le_by D a b -> le_by D a' b'.
Proof. intros (H1 & H2 & H3) (H4 & H5 & H6) (H7 & H8 & H9). split; [auto |]. split; intros c Hc; [destruct (H8 c (H2 c Hc)) | destruct (H9 c (H3 c Hc))]; auto. Qed.
Lemma le_by_cat D a b a' b' : le_by D (st_of a) (st_of a') -> le_by D (st_of b) (st_of b') -> le_by D (st_of (ty_cat a b)) (st_of (ty_cat a' b')).
Proof.
  intros (H1 & H2 & H3) (H4 & H5 & H6). eapply le_by_trans; [apply st_of_cat | apply st_of_cat |].
  unfold st_cat, le_by; cbn [s_null s_first s_flast]. split; [tauto |]. split.
  - intros c [Hc | [Hn Hc]]; [destruct (H2 c Hc) | destruct (H5 c Hc)]; auto.
  - intros c [Hc | [Hn [Hc | Hc]]]; [destruct (H6 c Hc) | destruct (H5 c Hc) | destruct (H3 c Hc)]; auto 6.
Qed.
Lemma le_by_alt D a b a' b' : le_by D (st_of a) (st_of a') -> le_by D (st_of b) (st_of b') -> le_by D (st_of (ty_alt a b)) (st_of (ty_alt a' b')).
Proof.
  intros (H1 & H2 & H3) (H4 & H5 & H6). eapply le_by_trans; [apply st_of_alt | apply st_of_alt |].
  unfold st_alt, le_by; cbn [s_null s_first s_flast]. split; [tauto |]. split.
  - intros c [Hc | Hc]; [destruct (H2 c Hc) | destruct (H5 c Hc)]; auto.
  - intros c [Hc | Hc]; [destruct (H3 c Hc) | destruct (H6 c Hc)]; auto.
Qed.

Lemma seq_go_by D inf inf' l :
  Forall (fun x : span * nexpr => forall r r', inf (snd x) = Ok r -> inf' (snd x) = Ok r' -> le_by D (st_of (get_type r)) (st_of (get_type r'))) l ->
  forall t t' ts u ts' u', le_by D (st_of t) (st_of t') -> seq_go inf t l = Ok (ts, u) -> seq_go inf' t' l = Ok (ts', u') -> le_by D (st_of u) (st_of u').
Proof.
  induction 1 as [| [p e] l He _ IH]; intros t t' ts u ts' u' Ht; cbn [seq_go].
  - intros E E'. injection E as _ <-. injection E' as _ <-. exact Ht.
  - cbn [snd] in He. destruct (inf e) as [r | | |]; try discriminate. destruct (inf' e) as [r' | | |]; try discriminate. specialize (He r r' eq_refl eq_refl).
    destruct (cset_disjoint _ _); try discriminate. destruct (cset_disjoint _ _); try (intros _; discriminate).
    destruct (seq_go inf _ l) as [[? ?] | | |] eqn:E1; try discriminate. intros E. injection E as _ <-.
    destruct (seq_go inf' _ l) as [[? ?] | | |] eqn:E2; try discriminate. intros E. injection E as _ <-.
    eapply IH; [| exact E1 | exact E2]. now apply le_by_cat.
Qed.
Lemma alt_go_by D inf inf' l :
  Forall (fun x : span * nexpr => forall r r', inf (snd x) = Ok r -> inf' (snd x) = Ok r' -> le_by D (st_of (get_type r)) (st_of (get_type r'))) l ->
  forall t t' ts u ts' u', le_by D (st_of t) (st_of t') -> alt_go inf t l = Ok (ts, u) -> alt_go inf' t' l = Ok (ts', u') -> le_by D (st_of u) (st_of u').
Proof.
  induction 1 as [| [p e] l He _ IH]; intros t t' ts u ts' u' Ht; cbn [alt_go].
  - intros E E'. injection E as _ <-. injection E' as _ <-. exact Ht.
  - cbn [snd] in He. destruct (inf e) as [r | | |]; try discriminate. destruct (inf' e) as [r' | | |]; try discriminate. specialize (He r r' eq_refl eq_refl).
    destruct (_ && _); try discriminate. destruct (cset_disjoint _ _); try discriminate. destruct (_ && _); try (intros _; discriminate). destruct (cset_disjoint _ _); try (intros _; discriminate).
    destruct (alt_go inf _ l) as [[? ?] | | |] eqn:E1; try discriminate. intros E. injection E as _ <-.
    destruct (alt_go inf' _ l) as [[? ?] | | |] eqn:E2; try discriminate. intros E. injection E as _ <-.
    eapply IH; [| exact E1 | exact E2]. now apply le_by_alt.
Qed.

(** Larger contexts give larger types, and what is added comes from what was
    added to the context. *)
Lemma infer_by D e : forall fuel fuel' nm nm' c c' r r',
  Forall2 (fun t t' => le_by D (st_of t) (st_of t')) (vars c) (vars c') ->
  infer fuel nm c e = Ok r -> infer fuel' nm' c' e = Ok r' -> le_by D (st_of (get_type r)) (st_of (get_type r')).
Proof.
  induction e using nexpr_ind_fix; intros fuel fuel' nm nm' c c' t t' Hc E E'; try discriminate E.
  - cbn in E, E'. injection E as <-. injection E' as <-. apply le_by_refl.
  - cbn in E, E'. injection E as <-. injection E' as <-. apply le_by_refl.
  - rewrite infer_cat in E, E'. destruct (infer fuel _ c e) as [f | | |] eqn:Ef; try discriminate E. destruct (infer fuel' _ c' e) as [f' | | |] eqn:Ef'; try discriminate E'.
    destruct (nullable (get_type f)); try discriminate E. destruct (nullable (get_type f')); try discriminate E'.
    destruct (seq_go _ (get_type f) r) as [[ts u] | | |] eqn:Es; try discriminate E. destruct (seq_go _ (get_type f') r) as [[ts' u'] | | |] eqn:Es'; try discriminate E'.
    injection E as <-. injection E' as <-. cbn [get_type]. eapply seq_go_by; [| | exact Es | exact Es']; [| eapply IHe; eauto].
    eapply Forall_impl; [| exact H]. intros x Hx q q' Eq Eq'. cbv beta in Hx. eapply Hx; [| exact Eq | exact Eq']. exact Hc.
  - rewrite infer_alt in E, E'. destruct (infer fuel _ c e) as [f | | |] eqn:Ef; try discriminate E. destruct (infer fuel' _ c' e) as [f' | | |] eqn:Ef'; try discriminate E'.
    destruct (alt_go _ (get_type f) r) as [[ts u] | | |] eqn:Es; try discriminate E. destruct (alt_go _ (get_type f') r) as [[ts' u'] | | |] eqn:Es'; try discriminate E'.
    injection E as <-. injection E' as <-. cbn [get_type]. eapply alt_go_by; [| | exact Es | exact Es']; [| eapply IHe; eauto].
    eapply Forall_impl; [| exact H]. intros x Hx q q' Eq Eq'. cbv beta in Hx. eapply Hx; [| exact Eq | exact Eq']. exact Hc.
  - rewrite infer_fix in E, E'. destruct (fix_loop _ _ _) as [b | | |] eqn:Eb; try discriminate E. injection E as <-.
    destruct (fix_loop _ fuel' _) as [b' | | |] eqn:Eb'; try discriminate E'. injection E' as <-. cbn [get_type]. apply fix_loop_ok in Eb'.
    assert (G : forall n last r, le_by D (st_of last) (st_of (get_type b')) ->
      fix_loop (fun last => infer fuel (merge_all [a_name ai; e_name e; nm]) (push_var last c) e) n last = Ok r -> le_by D (st_of (get_type r)) (st_of (get_type b'))).
    { induction n as [| n IHn]; intros last r Hl; cbn [fix_loop]; [discriminate |].
      destruct (infer fuel _ (push_var last c) e) as [q | | |] eqn:Eq; try discriminate.
      assert (Hq : le_by D (st_of (get_type q)) (st_of (get_type b'))). { eapply IHe; [| exact Eq | exact Eb']. constructor; [exact Hl | exact Hc]. }
      destruct (ty_eqb _ _); [intros K; injection K as <-; exact Hq | apply IHn, Hq]. }
    eapply G; [| exact Eb]. apply le_by_le, st_of_default_le.
  - rewrite infer_fix in E. destruct e; try discriminate E. exfalso. eapply H; reflexivity.
  - cbn [infer] in E, E'. unfold get_variable_type in E, E'. destruct (nth_error (vars c) i) as [v |] eqn:Ev; [| discriminate E]. destruct (nth_error (vars c') i) as [v' |] eqn:Ev'; [| discriminate E'].
    destruct (Nat.leb _ _); [| discriminate E]. destruct (Nat.leb _ _); [| discriminate E']. injection E as <-. injection E' as <-. cbn [get_type].
    clear - Hc Ev Ev'. revert i Ev Ev'. induction Hc as [| x y l l' Hx _ IH]; intros [| i] Ev Ev'; try discriminate Ev; cbn in *; [congruence | eauto].
Qed.

(** ** The start of the words does not depend on guarded variables *)
Definition same_head (t t' : ty) : Prop := nullable t = nullable t' /\ (forall c, In c (first_set t) <-> In c (first_set t')).
Lemma same_head_alt a b a' b' : same_head a a' -> same_head b b' -> same_head (ty_alt a b) (ty_alt a' b').
Proof.
  intros [H1 H2] [H3 H4]. split; cbn [ty_alt nullable first_set]; [congruence |]. intros c. rewrite !cset_union_In, H2, H4. reflexivity.
Qed.
Lemma seq_go_head inf l : forall t ts u, nullable t = false -> seq_go inf t l = Ok (ts, u) -> nullable u = false /\ first_set u = first_set t.
Proof.
  induction l as [| [p e] l IH]; intros t ts u Hn; cbn [seq_go].
  - intros E. injection E as _ <-. auto.
  - destruct (inf e) as [r | | |]; try discriminate. destruct (cset_disjoint _ _); try discriminate. destruct (seq_go inf _ l) as [[? ?] | | |] eqn:E1; try discriminate.
    intros E. injection E as _ <-. apply IH in E1 as [E1 E2]; [| cbn [ty_cat nullable]; now rewrite Hn]. split; [exact E1 |]. rewrite E2. cbn [ty_cat first_set]. now rewrite Hn.
Qed.
Lemma alt_go_head inf inf' l :
  Forall (fun x : span * nexpr => forall r r', inf (snd x) = Ok r -> inf' (snd x) = Ok r' -> same_head (get_type r) (get_type r')) l ->
  forall t t' ts u ts' u', same_head t t' -> alt_go inf t l = Ok (ts, u) -> alt_go inf' t' l = Ok (ts', u') -> same_head u u'.
Proof.
  induction 1 as [| [p e] l He _ IH]; intros t t' ts u ts' u' Ht; cbn [alt_go].
  - intros E E'. injection E as _ <-. injection E' as _ <-. exact Ht.
  - cbn [snd] in He. destruct (inf e) as [r | | |]; try discriminate. destruct (inf' e) as [r' | | |]; try discriminate. specialize (He r r' eq_refl eq_refl).
    destruct (_ && _); try discriminate. destruct (cset_disjoint _ _); try discriminate. destruct (_ && _); try (intros _; discriminate). destruct (cset_disjoint _ _); try (intros _; discriminate).
    destruct (alt_go inf _ l) as [[? ?] | | |] eqn:E1; try discriminate. intros E. injection E as _ <-.
    destruct (alt_go inf' _ l) as [[? ?] | | |] eqn:E2; try discriminate. intros E. injection E as _ <-.
    eapply IH; [| exact E1 | exact E2]. now apply same_head_alt.
Qed.
Definition agree_open (c c' : tctx) : Prop :=
  length (vars c) = length (vars c') /\ hd 0 (unguard_points c) = hd 0 (unguard_points c')
  /\ forall i t t', get_variable_type c i = Ok t -> get_variable_type c' i = Ok t' -> same_head t t'.
Lemma agree_open_var t t' c c' : ctx_wf c -> agree_open c c' -> agree_open (push_var t c) (push_var t' c').
Proof.
  intros Hw (H1 & H2 & H3). split; [cbn; congruence |]. split; [exact H2 |]. intros i u u'. unfold get_variable_type. cbn [push_var vars unguard_points length].
  destruct i as [| i]; cbn [nth_error].
  - destruct (Nat.leb_spec (S (length (vars c))) (hd 0 (unguard_points c) + 0)); [unfold ctx_wf in Hw; lia | discriminate].
  - intros E E'. apply (H3 i); unfold get_variable_type.
    + destruct (nth_error (vars c) i); [| discriminate E]. destruct (Nat.leb_spec (S (length (vars c))) (hd 0 (unguard_points c) + S i)); [| discriminate E].
      destruct (Nat.leb_spec (length (vars c)) (hd 0 (unguard_points c) + i)); [exact E | lia].
    + destruct (nth_error (vars c') i); [| discriminate E']. destruct (Nat.leb_spec (S (length (vars c'))) (hd 0 (unguard_points c') + S i)); [| discriminate E'].
      destruct (Nat.leb_spec (length (vars c')) (hd 0 (unguard_points c') + i)); [exact E' | lia].
Qed.
Lemma infer_head e : forall fuel fuel' nm nm' c c' r r', ctx_wf c -> agree_open c c' ->
  infer fuel nm c e = Ok r -> infer fuel' nm' c' e = Ok r' -> same_head (get_type r) (get_type r').
Proof.
  induction e using nexpr_ind_fix; intros fuel fuel' nm nm' c c' t t' Hw Hc E E'; try discriminate E.
  - cbn in E, E'. injection E as <-. injection E' as <-. split; reflexivity.
  - cbn in E, E'. injection E as <-. injection E' as <-. split; reflexivity.
  - rewrite infer_cat in E, E'. destruct (infer fuel _ c e) as [f | | |] eqn:Ef; try discriminate E. destruct (infer fuel' _ c' e) as [f' | | |] eqn:Ef'; try discriminate E'.
    destruct (nullable (get_type f)) eqn:N; try discriminate E. destruct (nullable (get_type f')) eqn:N'; try discriminate E'.
    destruct (seq_go _ (get_type f) r) as [[ts u] | | |] eqn:Es; try discriminate E. destruct (seq_go _ (get_type f') r) as [[ts' u'] | | |] eqn:Es'; try discriminate E'.
    injection E as <-. injection E' as <-. cbn [get_type]. apply seq_go_head in Es as [S1 S2]; [| exact N]. apply seq_go_head in Es' as [S1' S2']; [| exact N'].
    split; [congruence |]. rewrite S2, S2'. eapply IHe; eauto.
  - rewrite infer_alt in E, E'. destruct (infer fuel _ c e) as [f | | |] eqn:Ef; try discriminate E. destruct (infer fuel' _ c' e) as [f' | | |] eqn:Ef'; try discriminate E'.
    destruct (alt_go _ (get_type f) r) as [[ts u] | | |] eqn:Es; try discriminate E. destruct (alt_go _ (get_type f') r) as [[ts' u'] | | |] eqn:Es'; try discriminate E'.
    injection E as <-. injection E' as <-. cbn [get_type]. eapply alt_go_head; [| | exact Es | exact Es']; [| eapply IHe; eauto].
    eapply Forall_impl; [| exact H]. intros x Hx q q' Eq Eq'. cbv beta in Hx. eapply Hx; [exact Hw | exact Hc | exact Eq | exact Eq'].
  - rewrite infer_fix in E, E'. destruct (fix_loop _ _ _) as [b | | |] eqn:Eb; try discriminate E. injection E as <-.
    destruct (fix_loop _ fuel' _) as [b' | | |] eqn:Eb'; try discriminate E'. injection E' as <-. cbn [get_type]. apply fix_loop_ok in Eb, Eb'.
    eapply IHe; [| | exact Eb | exact Eb']; [now apply ctx_wf_var | now apply agree_open_var].
  - rewrite infer_fix in E. destruct e; try discriminate E. exfalso. eapply H; reflexivity.
  - cbn [infer] in E, E'. destruct (get_variable_type c i) as [v | | |] eqn:Ev; try discriminate E. destruct (get_variable_type c' i) as [v' | | |] eqn:Ev'; try discriminate E'.
    injection E as <-. injection E' as <-. cbn [get_type]. eapply (proj2 (proj2 Hc)); eauto.
Qed.

(** ** Three rounds *)
Lemma ty_antisym a b : ty_ok a -> ty_ok b -> st_le (st_of a) (st_of b) -> st_le (st_of b) (st_of a) -> ty_eqb a b = true.
Proof.
  intros Ha Hb H1 H2. destruct (ty_eqb a b) eqn:E; [reflexivity | exfalso]. assert (E' : ty_eqb b a = false).
  { destruct (ty_eqb b a) eqn:E'; [| reflexivity]. apply ty_eqb_eq in E'. subst. rewrite (proj2 (ty_eqb_eq a a) eq_refl) in E. discriminate. }
  pose proof (ty_size_lt a b Ha Hb H1 E). pose proof (ty_size_lt b a Hb Ha H2 E'). lia.
Qed.
Lemma agree_open_refl c : agree_open c c.
Proof. split; [reflexivity |]. split; [reflexivity |]. intros i t t' E E'. rewrite E in E'. injection E' as ->. split; reflexivity. Qed.
Lemma third_round e nm c S f1 f2 f3 r1 r2 r3 : ctx_wf c -> ctx_ok S c -> incl (lit_chars e) S ->
  infer f1 nm (push_var ty_default c) e = Ok r1 ->
  infer f2 nm (push_var (get_type r1) c) e = Ok r2 ->
  infer f3 nm (push_var (get_type r2) c) e = Ok r3 ->
  ty_eqb (get_type r2) (get_type r3) = true.
Proof.
  intros Hw Hc Hi E1 E2 E3.
  assert (K0 : ty_ok ty_default /\ ty_in S ty_default) by (split; [apply ty_ok_default | split; intros x []]).
  assert (K1 : ty_ok (get_type r1) /\ ty_in S (get_type r1)) by (eapply infer_ok; [exact Hi | | exact E1]; constructor; assumption).
  assert (K2 : ty_ok (get_type r2) /\ ty_in S (get_type r2)) by (eapply infer_ok; [exact Hi | | exact E2]; constructor; assumption).
  assert (K3 : ty_ok (get_type r3) /\ ty_in S (get_type r3)) by (eapply infer_ok; [exact Hi | | exact E3]; constructor; assumption).
  assert (R : forall D, Forall2 (fun t t' => le_by D (st_of t) (st_of t')) (vars c) (vars c)) by (intros D; induction (vars c); constructor; auto using le_by_refl).
  assert (Le : forall a b : stype, le_by (fun _ => False) a b -> st_le a b).
  { intros a b (L1 & L2 & L3). split; [exact L1 |]. split; intros x Hx; [destruct (L2 x Hx) | destruct (L3 x Hx)]; tauto. }
  assert (M12 : st_le (st_of (get_type r1)) (st_of (get_type r2))).
  { apply Le. eapply infer_by; [| exact E1 | exact E2]. constructor; [apply le_by_le, st_of_default_le | apply R]. }
  assert (M23 : st_le (st_of (get_type r2)) (st_of (get_type r3))).
  { apply Le. eapply infer_by; [| exact E2 | exact E3]. constructor; [apply le_by_le, M12 | apply R]. }
  assert (H12 : same_head (get_type r1) (get_type r2)).
  { eapply infer_head; [| | exact E1 | exact E2]; [now apply ctx_wf_var | apply agree_open_var; [exact Hw | apply agree_open_refl]]. }
  assert (H23 : same_head (get_type r2) (get_type r3)).
  { eapply infer_head; [| | exact E2 | exact E3]; [now apply ctx_wf_var | apply agree_open_var; [exact Hw | apply agree_open_refl]]. }
  apply ty_antisym; [apply K2 | apply K3 | exact M23 |].
  assert (B : le_by (fun x => In x (flast_set (get_type r2))) (st_of (get_type r3)) (st_of (get_type r2))).
  { eapply infer_by; [| exact E3 | exact E2]. constructor; [| apply R]. destruct H12 as [N F]. split; [cbn; congruence |]. split; [intros x Hx; left; now apply F | intros x Hx; now right]. }
  destruct B as (_ & _ & B). destruct H23 as [N F]. split; [cbn; congruence |]. split; [intros x Hx; now apply F |]. intros x Hx. destruct (B x Hx) as [Hb | Hb]; exact Hb.
Qed.
Lemma infer_three e : forall nm c S fuel, ctx_wf c -> ctx_ok S c -> incl (lit_chars e) S -> 3 <= fuel -> infer fuel nm c e <> OutOfFuel.
Proof.
  induction e using nexpr_ind_fix; intros nm c S fuel Hwf Hc Hi Hf; try (cbn; discriminate).
  - rewrite infer_cat. cbn in Hi. apply incl_app_inv in Hi as [Hi1 Hi2].
    specialize (IHe (e_name e) c S fuel Hwf Hc Hi1 Hf).
    destruct (infer fuel (e_name e) c e) as [f'| | |]; try discriminate; try contradiction.
    destruct (nullable (get_type f')); [discriminate|].
    pose proof (seq_go_terminates (fun e => infer fuel (e_name e) (push_unguard c) e) (get_type f') r) as Hs.
    destruct (seq_go _ _ _) as [[ts t']| | |]; try discriminate. exfalso. apply Hs; [|reflexivity].
    eapply incl_rest; [exact Hi2|eassumption|]. cbn. intros x Hx Hix. apply (Hx (e_name (snd x)) _ S); auto.
    apply ctx_wf_unguard.
  - rewrite infer_alt. cbn in Hi. apply incl_app_inv in Hi as [Hi1 Hi2].
    specialize (IHe (e_name e) c S fuel Hwf Hc Hi1 Hf).
    destruct (infer fuel (e_name e) c e) as [f'| | |]; try discriminate; try contradiction.
    pose proof (alt_go_terminates (fun e => infer fuel (e_name e) c e) (get_type f') r) as Hs.
    destruct (alt_go _ _ _) as [[ts t']| | |]; try discriminate. exfalso. apply Hs; [|reflexivity].
    eapply incl_rest; [exact Hi2|eassumption|]. cbn. intros x Hx Hix. apply (Hx (e_name (snd x)) _ S); auto.
  - rewrite infer_fix. cbn in Hi. set (nm' := merge_all _).
    assert (G : forall t, ty_ok t /\ ty_in S t -> infer fuel nm' (push_var t c) e <> OutOfFuel).
    { intros t Ht. apply (IHe _ _ S); auto; [now apply ctx_wf_var | constructor; assumption]. }
    assert (O : forall t r, ty_ok t /\ ty_in S t -> infer fuel nm' (push_var t c) e = Ok r -> ty_ok (get_type r) /\ ty_in S (get_type r)).
    { intros t r Ht. apply infer_ok; [exact Hi | constructor; assumption]. }
    assert (K0 : ty_ok ty_default /\ ty_in S ty_default) by (split; [apply ty_ok_default | split; intros x []]).
    destruct fuel as [| [| [| n]]]; [lia .. |]. remember (Datatypes.S (Datatypes.S (Datatypes.S n))) as fuel.
    enough (L : fix_loop (fun last => infer fuel nm' (push_var last c) e) (Datatypes.S (Datatypes.S (Datatypes.S n))) ty_default <> OutOfFuel).
    { rewrite <- Heqfuel in L. destruct (fix_loop _ _ _); congruence. }
    cbn [fix_loop]. pose proof (G _ K0) as G1. destruct (infer fuel nm' (push_var ty_default c) e) as [r1 | | |] eqn:E1; try discriminate; try contradiction.
    destruct (ty_eqb _ _); [discriminate |]. pose proof (O _ _ K0 E1) as K1. pose proof (G _ K1) as G2.
    destruct (infer fuel nm' (push_var (get_type r1) c) e) as [r2 | | |] eqn:E2; try discriminate; try contradiction.
    destruct (ty_eqb _ _); [discriminate |]. pose proof (O _ _ K1 E2) as K2. pose proof (G _ K2) as G3.
    destruct (infer fuel nm' (push_var (get_type r2) c) e) as [r3 | | |] eqn:E3; try discriminate; try contradiction.
    rewrite (third_round _ _ _ S _ _ _ _ _ _ Hwf Hc Hi E1 E2 E3). discriminate.
  - rewrite infer_fix. destruct e; try discriminate. exfalso. eapply H; reflexivity.
  - cbn [infer]. pose proof (get_variable_type_spec c i). destruct (get_variable_type c i) eqn:Ev; try discriminate. unfold get_variable_type in Ev. destruct (nth_error _ _); [destruct (Nat.leb _ _)|]; discriminate.
Qed.
