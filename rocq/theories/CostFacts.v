(** * CostFacts: a bound on the work of type inference. *)
From Verif Require Export RoundFacts InferCost SpecCost.
From Coq Require Import List Lia.
Import ListNotations.

Fixpoint rest_size (l : list (span * nexpr)) : nat := match l with [] => 0 | (_, x) :: l' => size x + rest_size l' end.
Fixpoint rest_depth (l : list (span * nexpr)) : nat := match l with [] => 0 | (_, x) :: l' => Nat.max (fix_depth x) (rest_depth l') end.
Lemma size_cat a f r : size (ECat a f r) = 1 + size f + rest_size r.
Proof. reflexivity. Qed.
Lemma size_alt a f r : size (EAlt a f r) = 1 + size f + rest_size r.
Proof. reflexivity. Qed.
Lemma depth_cat a f r : fix_depth (ECat a f r) = Nat.max (fix_depth f) (rest_depth r).
Proof. reflexivity. Qed.
Lemma depth_alt a f r : fix_depth (EAlt a f r) = Nat.max (fix_depth f) (rest_depth r).
Proof. reflexivity. Qed.
Lemma seq_visits_le inf vis k l : Forall (fun x : span * nexpr => vis (snd x) <= k * size (snd x)) l -> forall t, seq_visits inf vis t l <= k * rest_size l.
Proof.
  induction 1 as [| [p e] l He _ IH]; intros t; cbn [seq_visits rest_size]; [lia |]. cbn [snd] in He.
  destruct (inf e) as [r | | |]; try lia. destruct (cset_disjoint _ _); [| lia]. specialize (IH (ty_cat t (get_type r))). lia.
Qed.
Lemma alt_visits_le inf vis k l : Forall (fun x : span * nexpr => vis (snd x) <= k * size (snd x)) l -> forall t, alt_visits inf vis t l <= k * rest_size l.
Proof.
  induction 1 as [| [p e] l He _ IH]; intros t; cbn [alt_visits rest_size]; [lia |]. cbn [snd] in He.
  destruct (inf e) as [r | | |]; try lia. destruct (_ && _); [lia |]. destruct (cset_disjoint _ _); [| lia]. specialize (IH (ty_alt t (get_type r))). lia.
Qed.
Lemma depth_In x r : In x r -> fix_depth (snd x) <= rest_depth r.
Proof. induction r as [| [p e] r IH]; [intros [] |]. cbn [rest_depth]. intros [<- | Hx]; cbn [snd]; [lia |]. specialize (IH Hx). lia. Qed.
Lemma pow_le a b : a <= b -> 3 ^ a <= 3 ^ b.
Proof. apply Nat.pow_le_mono_r. lia. Qed.
Lemma pow_pos a : 1 <= 3 ^ a.
Proof. pose proof (Nat.pow_nonzero 3 a). lia. Qed.
Lemma scale_le (x a b s : nat) : x <= 3 ^ a * s -> a <= b -> x <= 3 ^ b * s.
Proof. intros H L. apply pow_le in L. nia. Qed.
Lemma visits_le e : forall fuel nm c S, ctx_wf c -> ctx_ok S c -> incl (lit_chars e) S -> visits fuel nm c e <= 3 ^ fix_depth e * size e.
Proof.
  induction e using nexpr_ind_fix; intros fuel nm c S Hwf Hc Hi; try (cbn; lia).
  - rewrite size_cat, depth_cat. cbn in Hi. apply incl_app_inv in Hi as [Hi1 Hi2]. cbn [visits].
    specialize (IHe fuel (e_name e) c S Hwf Hc Hi1). apply (scale_le _ _ (Nat.max (fix_depth e) (rest_depth r))) in IHe; [| lia].
    pose proof (pow_pos (Nat.max (fix_depth e) (rest_depth r))). set (k := 3 ^ _) in *.
    destruct (infer fuel (e_name e) c e) as [f' | | |]; try nia. destruct (nullable _); [nia |].
    pose proof (seq_visits_le (fun x => infer fuel (e_name x) (push_unguard c) x) (fun x => visits fuel (e_name x) (push_unguard c) x) k r) as Hs.
    lapply Hs; [intros Hs'; specialize (Hs' (get_type f')); nia |].
    assert (Hd : Forall (fun x : span * nexpr => fix_depth (snd x) <= rest_depth r) r) by (apply Forall_forall; intros x; apply depth_In).
    eapply incl_rest; [exact Hi2 | apply (Forall_and H Hd) |]. cbv beta. intros x [Hx Hdx] Hix. eapply scale_le; [apply (Hx fuel (e_name (snd x)) _ S); auto; apply ctx_wf_unguard | lia].
  - rewrite size_alt, depth_alt. cbn in Hi. apply incl_app_inv in Hi as [Hi1 Hi2]. cbn [visits].
    specialize (IHe fuel (e_name e) c S Hwf Hc Hi1). apply (scale_le _ _ (Nat.max (fix_depth e) (rest_depth r))) in IHe; [| lia].
    pose proof (pow_pos (Nat.max (fix_depth e) (rest_depth r))). set (k := 3 ^ _) in *.
    destruct (infer fuel (e_name e) c e) as [f' | | |]; try nia.
    pose proof (alt_visits_le (fun x => infer fuel (e_name x) c x) (fun x => visits fuel (e_name x) c x) k r) as Hs.
    lapply Hs; [intros Hs'; specialize (Hs' (get_type f')); nia |].
    assert (Hd : Forall (fun x : span * nexpr => fix_depth (snd x) <= rest_depth r) r) by (apply Forall_forall; intros x; apply depth_In).
    eapply incl_rest; [exact Hi2 | apply (Forall_and H Hd) |]. cbv beta. intros x [Hx Hdx] Hix. eapply scale_le; [apply (Hx fuel (e_name (snd x)) _ S); auto | lia].
  - cbn [visits size fix_depth]. cbn in Hi. set (nm' := merge_all _).
    assert (G : forall t, ty_ok t /\ ty_in S t -> visits fuel nm' (push_var t c) e <= 3 ^ fix_depth e * size e).
    { intros t Ht. apply (IHe _ _ _ S); auto; [now apply ctx_wf_var | constructor; assumption]. }
    assert (O : forall t r, ty_ok t /\ ty_in S t -> infer fuel nm' (push_var t c) e = Ok r -> ty_ok (get_type r) /\ ty_in S (get_type r)).
    { intros t r Ht. apply infer_ok; [exact Hi | constructor; assumption]. }
    assert (K0 : ty_ok ty_default /\ ty_in S ty_default) by (split; [apply ty_ok_default | split; intros x []]).
    assert (L : forall n, loop_visits (fun last => infer fuel nm' (push_var last c) e) (fun last => visits fuel nm' (push_var last c) e) n ty_default <= 3 * (3 ^ fix_depth e * size e)).
    { intros [| n]; cbn [loop_visits]; [lia |]. pose proof (G _ K0) as G1. set (k := 3 ^ fix_depth e * size e) in *.
      destruct (infer fuel nm' (push_var ty_default c) e) as [r1 | | |] eqn:E1; try lia. destruct (ty_eqb _ _); [lia |]. pose proof (O _ _ K0 E1) as K1.
      destruct n as [| n]; cbn [loop_visits]; [lia |]. pose proof (G _ K1) as G2.
      destruct (infer fuel nm' (push_var (get_type r1) c) e) as [r2 | | |] eqn:E2; try lia. destruct (ty_eqb _ _); [lia |]. pose proof (O _ _ K1 E2) as K2.
      destruct n as [| n]; cbn [loop_visits]; [lia |]. pose proof (G _ K2) as G3.
      destruct (infer fuel nm' (push_var (get_type r2) c) e) as [r3 | | |] eqn:E3; try lia.
      rewrite (third_round _ _ _ S _ _ _ _ _ _ Hwf Hc Hi E1 E2 E3). lia. }
    specialize (L fuel). change (1 + fix_depth e) with (Datatypes.S (fix_depth e)). rewrite Nat.pow_succ_r'. pose proof (pow_pos (fix_depth e)). set (k := 3 ^ fix_depth e) in *.
    remember (loop_visits _ _ _ _) as v. clear - L H. nia.
  - cbn [visits]. assert (P : 1 <= 3 ^ fix_depth (EFix a e) * size (EFix a e)) by (pose proof (pow_pos (fix_depth (EFix a e))); cbn [size]; nia).
    destruct e; try exact P. exfalso. eapply H; reflexivity.
  - cbn [visits]. pose proof (pow_pos (fix_depth (ECall a e l))). cbn [size]. nia.
  - cbn [visits]. pose proof (pow_pos (fix_depth (ELam a n e))). cbn [size]. nia.
  - cbn [visits]. pose proof (pow_pos (fix_depth (ELet a n e1 e2))). cbn [size]. nia.
Qed.
