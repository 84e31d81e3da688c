(** * PropRounds: the cost of type inference (C96). *)
From Verif Require Export CostFacts Examples.
From Coq Require Import String.
From Coq Require Import List Lia NArith.
Import ListNotations.

(** C96.  Three rounds are enough for every fixed point: whatever the expression,
    the answer does not change when no loop is given more than three rounds. *)
Theorem C96_three_rounds (e : nexpr) (fuel : nat) : 3 <= fuel ->
  infer fuel (e_name e) tctx_default e <> OutOfFuel /\ infer fuel (e_name e) tctx_default e = typecheck e.
Proof.
  intros Hf. assert (H : infer fuel (e_name e) tctx_default e <> OutOfFuel) by (apply (infer_three e _ _ (lit_chars e)); [apply ctx_wf_default | constructor | apply incl_refl | exact Hf]).
  split; [exact H | apply typecheck_any_fuel, H].
Qed.
(** So in every context inference reaches. *)
Theorem C96_three_rounds_in (e : nexpr) (nm : option name) (c : tctx) (fuel : nat) : reachable_ctx c -> 3 <= fuel ->
  infer fuel nm c e <> OutOfFuel /\ infer fuel nm c e = infer 3 nm c e.
Proof.
  intros Hr Hf. assert (H : forall k, 3 <= k -> infer k nm c e <> OutOfFuel).
  { intros k Hk. apply (infer_three e nm c (lit_chars e ++ ctx_chars c)); [now apply reachable_wf | apply reachable_ok; [exact Hr | apply incl_appr, incl_refl] | apply incl_appl, incl_refl | exact Hk]. }
  split; [now apply H |]. apply infer_fuel_mono; [exact Hf | now apply H].
Qed.
(** Two are not. *)
Example C96_two_rounds : let e := fix1 "x" (cat2 (L "a") (alt2 (V 0) (EEps a0))) in
  infer 2 (e_name e) tctx_default e = OutOfFuel /\ (exists r, infer 3 (e_name e) tctx_default e = Ok r).
Proof. cbv zeta. split; [reflexivity | eexists; reflexivity]. Qed.

(** The expressions folded are at most three times as many for every fixed
    point around them. *)
Theorem C96_bound (e : nexpr) (fuel : nat) : visits fuel (e_name e) tctx_default e <= 3 ^ fix_depth e * size e.
Proof. apply (visits_le e _ _ _ (lit_chars e)); [apply ctx_wf_default | constructor | apply incl_refl]. Qed.

(** And there are accepted expressions of which that is the order: the size grows
    with [d], the work with [3 ^ d]. *)
Fixpoint tower (d : nat) : nexpr :=
  match d with
  | O => L "a"
  | S d => fix1 "x" (cat2 (L "a") (EAlt a0 (V 0) [(0%N, EEps a0); (0%N, cat3 (L "b") (tower d) (L "c"))]))
  end.
Lemma tower_size d : size (tower d) = 10 * d + 1.
Proof. induction d as [| d IH]; [reflexivity |]. cbn [tower fix1 cat2 cat3 L V size]. rewrite IH. lia. Qed.
Definition ty1 : ty := Ty false [97%N] [98%N].
Definition ty2 : ty := Ty false [97%N] [97%N; 98%N].
Definition inner_ok (t : ty) : Prop := t = Ty false [97%N] [] \/ t = ty2.
Definition floor (i : nexpr) : nexpr := cat2 (L "a") (EAlt a0 (V 0) [(0%N, EEps a0); (0%N, cat3 (L "b") i (L "c"))]).
Lemma floor_step fuel i : (forall nm c, exists r, infer fuel nm c i = Ok r /\ inner_ok (get_type r)) -> forall nm c,
  (exists r, infer fuel nm (push_var ty_default c) (floor i) = Ok r /\ get_type r = ty1)
  /\ (exists r, infer fuel nm (push_var ty1 c) (floor i) = Ok r /\ get_type r = ty2)
  /\ (exists r, infer fuel nm (push_var ty2 c) (floor i) = Ok r /\ get_type r = ty2).
Proof.
  intros Hi nm c. assert (G : forall t (u : ty), (t = ty_default /\ u = ty1) \/ (t = ty1 /\ u = ty2) \/ (t = ty2 /\ u = ty2) ->
    exists r, infer fuel nm (push_var t c) (floor i) = Ok r /\ get_type r = u).
  { intros t u Htu. unfold floor, cat2. rewrite infer_cat. cbn [L infer get_type]. change (nullable (ty_of_str (lit "a"))) with false. cbv iota. cbn [seq_go]. rewrite infer_alt.
    unfold V at 1 2. cbn [infer]. unfold get_variable_type. cbn [push_unguard push_var vars unguard_points nth_error hd length]. rewrite (proj2 (Nat.leb_le _ _)) by lia. cbv iota.
    cbn [alt_go]. unfold cat3. rewrite infer_cat. cbn [L infer get_type]. change (nullable (ty_of_str (lit "b"))) with false. cbv iota. cbn [seq_go].
    match goal with |- context [infer fuel (e_name i) ?k i] => destruct (Hi (e_name i) k) as (q & Eq & Hq); rewrite Eq end.
    destruct Hq as [Hq | Hq]; rewrite Hq; destruct Htu as [[-> ->] | [[-> ->] | [-> ->]]]; vm_compute; eexists; split; reflexivity. }
  repeat split; apply G; tauto.
Qed.
Lemma tower_typed fuel d : 3 <= fuel -> forall nm c, exists r, infer fuel nm c (tower d) = Ok r /\ inner_ok (get_type r).
Proof.
  intros Hf. induction d as [| d IH]; intros nm c.
  - eexists. split; [reflexivity | left; reflexivity].
  - change (tower (S d)) with (EFix a0 (ELam a0 [nvar "x"] (floor (tower d)))). rewrite infer_fix. set (nm' := merge_all _).
    destruct (floor_step fuel _ IH nm' c) as ((r1 & E1 & T1) & (r2 & E2 & T2) & (r3 & E3 & T3)).
    assert (E : forall k, fix_loop (fun last => infer fuel nm' (push_var last c) (floor (tower d))) (S (S (S k))) ty_default = Ok r3).
    { intros k. cbn [fix_loop]. rewrite E1, T1. change (ty_eqb ty_default ty1) with false. cbv iota. rewrite E2, T2. change (ty_eqb ty1 ty2) with false. cbv iota.
      rewrite E3, T3. reflexivity. }
    specialize (E (fuel - 3)). replace (S (S (S (fuel - 3)))) with fuel in E by lia. rewrite E. eexists. split; [reflexivity | right; exact T3].
Qed.
Lemma floor_visits fuel d nm c t : 3 <= fuel -> t = ty_default \/ t = ty1 \/ t = ty2 ->
  exists nm' c', visits fuel nm (push_var t c) (floor (tower d)) = 8 + visits fuel nm' c' (tower d).
Proof.
  intros Hf Ht. unfold floor, cat2. cbn [visits L infer get_type]. change (nullable (ty_of_str (lit "a"))) with false. cbv iota. cbn [seq_visits].
  replace (match infer fuel _ _ _ with Ok rgt' => _ | _ => 0 end) with 0 by (destruct (infer fuel _ _ _); [destruct (cset_disjoint _ _) | | |]; reflexivity).
  unfold V at 1. cbn [e_name e_ann a_name visits]. unfold V. cbn [infer e_name e_ann a_name visits]. unfold get_variable_type. cbn [push_unguard push_var vars unguard_points nth_error hd length].
  rewrite (proj2 (Nat.leb_le _ _)) by lia. cbv iota. cbn [alt_visits visits infer get_type]. replace (nullable t) with false by (destruct Ht as [-> | [-> | ->]]; reflexivity). cbn [andb]. cbv iota.
  change (first_set ty_eps) with (@nil char). replace (cset_disjoint (first_set t) []) with true by (destruct Ht as [-> | [-> | ->]]; reflexivity). cbv iota.
  unfold cat3. cbn [visits L infer get_type]. change (nullable (ty_of_str (lit "b"))) with false. cbv iota. cbn [seq_visits].
  match goal with |- context [visits fuel (e_name (tower d)) ?k (tower d)] => exists (e_name (tower d)), k; destruct (tower_typed fuel d Hf (e_name (tower d)) k) as (q & Eq & Hq); rewrite Eq end.
  replace (cset_disjoint _ _) with true by (destruct Hq as [-> | ->]; reflexivity). cbv iota. cbn [visits infer get_type].
  change (visits fuel (e_name (L "c")) _ (L "c")) with 1. change (infer fuel (e_name (L "c")) ?k (L "c")) with (infer fuel (e_name (L "c")) k (ELit a0 (lit "c"))). cbn [infer get_type].
  assert (D : cset_disjoint (flast_set (ty_cat (ty_of_str (lit "b")) (get_type q))) (first_set (ty_of_str (lit "c"))) = true) by (destruct Hq as [-> | ->]; reflexivity).
  rewrite !D. cbv iota beta. cbn [get_type].
  repeat match goal with |- context [if ?b then 0 else 0] => replace (if b then 0 else 0) with 0 by (destruct b; reflexivity) end.
  repeat match goal with |- context [if ?b then 0 else ?y] => destruct b end; lia.
Qed.
Lemma tower_visits fuel d : 3 <= fuel -> forall nm c, 2 * visits fuel nm c (tower d) + 25 = 27 * 3 ^ d.
Proof.
  intros Hf. induction d as [| d IH]; intros nm c; [reflexivity |].
  change (tower (S d)) with (EFix a0 (ELam a0 [nvar "x"] (floor (tower d)))). cbn [visits]. set (nm' := merge_all _).
  destruct (floor_step fuel _ (tower_typed fuel d Hf) nm' c) as ((r1 & E1 & T1) & (r2 & E2 & T2) & (r3 & E3 & T3)).
  destruct (floor_visits fuel d nm' c ty_default Hf) as (n1 & c1 & V1); [tauto |].
  destruct (floor_visits fuel d nm' c ty1 Hf) as (n2 & c2 & V2); [tauto |].
  destruct (floor_visits fuel d nm' c ty2 Hf) as (n3 & c3 & V3); [tauto |].
  assert (E : forall k, loop_visits (fun last => infer fuel nm' (push_var last c) (floor (tower d))) (fun last => visits fuel nm' (push_var last c) (floor (tower d))) (S (S (S k))) ty_default
    = 24 + visits fuel n1 c1 (tower d) + visits fuel n2 c2 (tower d) + visits fuel n3 c3 (tower d)).
  { intros k. cbn [loop_visits]. rewrite E1, T1, V1. change (ty_eqb ty_default ty1) with false. cbv iota. rewrite E2, T2, V2. change (ty_eqb ty1 ty2) with false. cbv iota.
    rewrite E3, T3, V3. change (ty_eqb ty2 ty2) with true. cbv iota. lia. }
  specialize (E (fuel - 3)). replace (S (S (S (fuel - 3)))) with fuel in E by lia. rewrite E.
  pose proof (IH n1 c1). pose proof (IH n2 c2). pose proof (IH n3 c3). rewrite Nat.pow_succ_r'. lia.
Qed.
Theorem C96_exponential (d : nat) : (exists r, typecheck (tower d) = Ok r) /\ size (tower d) = 10 * d + 1
  /\ forall fuel, 3 <= fuel -> 3 ^ d <= visits fuel (e_name (tower d)) tctx_default (tower d).
Proof.
  split; [| split; [apply tower_size |]].
  - destruct (tower_typed 3 d (le_n 3) (e_name (tower d)) tctx_default) as (r & E & _). exists r. rewrite <- (proj2 (C96_three_rounds (tower d) 3 (le_n 3))). exact E.
  - intros fuel Hf. pose proof (tower_visits fuel d Hf (e_name (tower d)) tctx_default). pose proof (Nat.pow_nonzero 3 d). lia.
Qed.
Example C96_ex : fix_depth (tower 2) = 2 /\ size (tower 2) = 21 /\ visits 3 (e_name (tower 2)) tctx_default (tower 2) = 109.
Proof. repeat split. Qed.
Print Assumptions C96_three_rounds.
Print Assumptions C96_three_rounds_in.
Print Assumptions C96_bound.
Print Assumptions C96_exponential.
