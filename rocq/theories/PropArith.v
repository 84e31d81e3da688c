(** * PropArith: the hand-written arithmetic parser (C55). *)
From Coq Require Import String ZArith.
From Verif Require Import ArithSound.
From Coq Require Import List Lia.
Open Scope list_scope.
Local Opaque Z.pow.

(** ** What is computed *)
(** [fuel] only bounds the model's recursion; any number from [2|s|+2] on gives
    the same answer. *)
Theorem C55_value k n s z : 2 * length s + 2 <= n ->
  (parse_expr k n s = Ok z <-> exists b w, s = b ++ w /\ blank b /\ Expr (machine k) w (Some z)).
Proof.
  intros Hn. destruct (parse_expr_spec k n s Hn) as [H1 H2]. split.
  - intros E. now rewrite E in H1.
  - intros (b & w & Hs & Hb & He). exact (H2 b w _ Hs Hb He).
Qed.

Theorem C55_error n k s e : 2 * length s + 2 <= n -> parse_expr k n s = Err e ->
  forall b w v, s = b ++ w -> blank b -> ~ Expr (machine k) w v.
Proof. intros Hn E. destruct (parse_expr_spec k n s Hn) as [H1 _]. now rewrite E in H1. Qed.

Theorem C55_never_hangs n k s : 2 * length s + 2 <= n -> parse_expr k n s <> OutOfFuel.
Proof. intros Hn E. destruct (parse_expr_spec k n s Hn) as [H1 _]. now rewrite E in H1. Qed.

(** A panic means that the calculation failed. *)
Theorem C55_panic n k s : 2 * length s + 2 <= n -> parse_expr k n s = Panic ->
  exists b w r q, s = b ++ w ++ r /\ blank b /\ Expr (machine k) (w ++ q) None.
Proof. intros Hn E. destruct (parse_expr_spec k n s Hn) as [H1 _]. now rewrite E in H1. Qed.
Theorem C55_failing_calculation_panics n k b w : 2 * length (b ++ w) + 2 <= n -> blank b -> Expr (machine k) w None ->
  parse_expr k n (b ++ w) = Panic.
Proof. intros Hn Hb He. destruct (parse_expr_spec k n _ Hn) as [_ H2]. exact (H2 b w _ eq_refl Hb He). Qed.

(** A text has at most one value. *)
Theorem C55_one_value k w v v' : Expr (machine k) w v -> Expr (machine k) w v' -> v = v'.
Proof.
  intros H H'. pose proof (fun v => proj2 (parse_expr_spec k _ w (le_n _)) [] w v eq_refl (Forall_nil _)) as P.
  pose proof (P v H) as P1. pose proof (P v' H') as P2. rewrite P1 in P2. destruct v, v'; congruence.
Qed.

(** ** How that relates to mathematics *)
(** One calculator agrees with another whenever it succeeds. *)
Definition agrees (A B : calculator) : Prop :=
  (forall x y z, c_add A x y = Some z -> c_add B x y = Some z) /\ (forall x y z, c_sub A x y = Some z -> c_sub B x y = Some z) /\
  (forall x y z, c_mul A x y = Some z -> c_mul B x y = Some z) /\ (forall x y z, c_div A x y = Some z -> c_div B x y = Some z) /\
  (forall x z, c_neg A x = Some z -> c_neg B x = Some z).
Definition below (v v' : option Z) : Prop := forall z, v = Some z -> v' = Some z.
Lemma below_op2 f g a b a' b' : (forall x y z, f x y = Some z -> g x y = Some z) -> below a a' -> below b b' -> below (op2 f a b) (op2 g a' b').
Proof.
  intros Hf Ha Hb z. destruct a as [x |]; [| discriminate]. destruct b as [y |]; [| discriminate]. rewrite (Ha x eq_refl), (Hb y eq_refl). apply Hf.
Qed.
Lemma decimal_below A B (H : agrees A B) w : forall a a', below a a' -> below (decimal A a w) (decimal B a' w).
Proof.
  destruct H as (Hadd & _ & Hmul & _). induction w as [| c w IH]; intros a a' Ha; [exact Ha |]. cbn [decimal]. apply IH.
  apply below_op2; [exact Hadd | | now intros ? E]. apply below_op2; [exact Hmul | exact Ha | now intros ? E].
Qed.
Lemma agree_values A B (H : agrees A B) :
  (forall w v, Term A w v -> exists v', Term B w v' /\ below v v') /\
  (forall w v, Prod A w v -> exists v', Prod B w v' /\ below v v') /\
  (forall w v, Expr A w v -> exists v', Expr B w v' /\ below v v').
Proof.
  assert (Hnum : forall w v, Number A w v -> exists v', Number B w v' /\ below v v').
  { intros w v [w' Hw Hd]. eexists. split; [now constructor |]. apply decimal_below; [exact H |]. now intros ? E. }
  destruct H as (Hadd & Hsub & Hmul & Hdiv & Hneg).
  apply Term_mut; intros; repeat match goal with H : exists _, _ |- _ => let v := fresh "v" in let a := fresh "T" in let b := fresh "L" in destruct H as (v & a & b)
    | H : Number A _ _ |- _ => apply Hnum in H end.
  - eexists. split; [apply term_num; eassumption | exact L].
  - eexists. split; [apply term_neg; eassumption |]. destruct v as [x |]; [rewrite (L x eq_refl); intros z; apply Hneg | discriminate].
  - eexists. split; [apply term_paren; eassumption | exact L].
  - eexists. split; [apply prod_term; eassumption | exact L].
  - eexists. split; [apply prod_mul; eassumption |]. apply below_op2; eauto.
  - eexists. split; [apply prod_div; eassumption |]. apply below_op2; eauto.
  - eexists. split; [apply expr_prod; eassumption | exact L].
  - eexists. split; [apply expr_add; eassumption |]. apply below_op2; eauto.
  - eexists. split; [apply expr_sub; eassumption |]. apply below_op2; eauto.
Qed.
Lemma limit_some x z : limit x = Some z -> x = Some z /\ fits z = true.
Proof. destruct x as [y |]; [| discriminate]. cbn. destruct (fits y) eqn:E; [| discriminate]. intros [= <-]. auto. Qed.
Lemma checked_exact : agrees checked exact.
Proof. repeat split; intros *; intros H; now apply limit_some in H as [H _]. Qed.
Lemma checked_wrapping : agrees checked wrapping.
Proof.
  repeat split; intros *; intros H; [| | | exact H |]; apply limit_some in H as [[= <-] H]; cbn; now rewrite wrapped_id.
Qed.

(** With overflow checks the value is the exact one. *)
Theorem C55_exact_in_debug n s z : 2 * length s + 2 <= n -> parse_expr true n s = Ok z ->
  (- 2 ^ 63 <= z < 2 ^ 63)%Z /\ exists b w, s = b ++ w /\ blank b /\ Expr exact w (Some z).
Proof.
  intros Hn E. apply C55_value in E as (b & w & -> & Hb & He); [| exact Hn]. split.
  - apply fits_iff. assert (HF : (forall w v, Term checked w v -> below v (limit v)) /\ (forall w v, Prod checked w v -> below v (limit v)) /\ (forall w v, Expr checked w v -> below v (limit v))).
    2: { destruct HF as (_ & _ & HF). now destruct (limit_some _ _ (HF w _ He z eq_refl)). }
    assert (Hl : forall x, below (limit x) (limit (limit x))). { intros x y Ey. rewrite Ey. destruct (limit_some _ _ Ey) as [_ Hy]. cbn. now rewrite Hy. }
    assert (Hd : forall w a, below a (limit a) -> below (decimal checked a w) (limit (decimal checked a w))).
    { induction w0 as [| c w0 IH]; intros a Ha; [exact Ha |]. cbn [decimal]. apply IH. destruct a as [x |]; [| discriminate]. cbn [op2].
      destruct (c_mul checked x 10); [apply Hl | discriminate]. }
    assert (Hnum : forall w v, Number checked w v -> below v (limit v)).
    { intros ? ? [? _ _]. apply Hd. intros ? [= <-]. cbn. rewrite (proj2 (fits_iff 0)); [reflexivity |]. pose proof pow63. lia. }
    apply Term_mut; intros; eauto.
    + destruct v as [x |]; [| discriminate]. cbn [op1]. apply Hl.
    + destruct v as [x |], v' as [y |]; try discriminate. apply Hl.
    + destruct v as [x |], v' as [y |]; try discriminate. apply Hl.
    + destruct v as [x |], v' as [y |]; try discriminate. apply Hl.
    + destruct v as [x |], v' as [y |]; try discriminate. apply Hl.
  - apply (agree_values _ _ checked_exact) in He as (v & He & L). exists b, w. rewrite (L z eq_refl) in He. auto.
Qed.

(** A release build returns what a debug build returns, when that returns. *)
Theorem C55_release_agrees n s z : 2 * length s + 2 <= n -> parse_expr true n s = Ok z -> parse_expr false n s = Ok z.
Proof.
  intros Hn E. apply C55_value in E as (b & w & -> & Hb & He); [| exact Hn]. apply C55_value; [exact Hn |].
  apply (agree_values _ _ checked_wrapping) in He as (v & He & L). exists b, w. rewrite (L z eq_refl) in He. auto.
Qed.

(** A release build computes modulo [2^64], as long as nothing is divided. *)
Lemma wrapped_mod z : exists q, wrapped z = (z + q * 2 ^ 64)%Z.
Proof.
  unfold wrapped. pose proof (Z_div_mod_eq_full z (2 ^ 64)). destruct (Z.ltb _ _); [exists (- (z / 2 ^ 64))%Z | exists (- (z / 2 ^ 64) - 1)%Z]; lia.
Qed.
Lemma wrapped_eq x y q : (x = y + q * 2 ^ 64)%Z -> wrapped x = wrapped y.
Proof. intros ->. unfold wrapped. rewrite Z.mod_add; [reflexivity |]. pose proof pow64. pose proof pow63. lia. Qed.
Lemma wrapped_add x y : wrapped (wrapped x + wrapped y) = wrapped (x + y).
Proof. destruct (wrapped_mod x) as [p ->], (wrapped_mod y) as [q ->]. apply (wrapped_eq _ _ (p + q)). ring. Qed.
Lemma wrapped_sub x y : wrapped (wrapped x - wrapped y) = wrapped (x - y).
Proof. destruct (wrapped_mod x) as [p ->], (wrapped_mod y) as [q ->]. apply (wrapped_eq _ _ (p - q)). ring. Qed.
Lemma wrapped_mul x y : wrapped (wrapped x * wrapped y) = wrapped (x * y).
Proof. destruct (wrapped_mod x) as [p ->], (wrapped_mod y) as [q ->]. apply (wrapped_eq _ _ (p * y + q * x + p * q * 2 ^ 64)). ring. Qed.
Lemma wrapped_neg x : wrapped (- wrapped x) = wrapped (- x).
Proof. destruct (wrapped_mod x) as [p ->]. apply (wrapped_eq _ _ (- p)). ring. Qed.
Lemma wrapped_twice x : wrapped (wrapped x) = wrapped x.
Proof. apply wrapped_id, wrapped_range. Qed.

Definition modular (w : rstr) (v : option Z) (P : rstr -> option Z -> Prop) : Prop :=
  ~ In (chr "/") w -> exists y, P w (Some y) /\ v = Some (wrapped y).
Lemma decimal_some w : forall x, exists y, decimal exact (Some x) w = Some y.
Proof. induction w as [| c w IH]; intros x; [now exists x |]. cbn [decimal op2 c_add c_mul exact]. apply IH. Qed.
Lemma decimal_modular w : forall x y z, y = wrapped x -> decimal exact (Some x) w = Some z -> decimal wrapping (Some y) w = Some (wrapped z).
Proof.
  induction w as [| c w IH]; intros x y z E H; [cbn in *; congruence |]. cbn [decimal op2 c_add c_mul wrapping exact] in *. refine (IH _ _ _ _ H).
  subst y. destruct (wrapped_mod x) as [p ->]. destruct (wrapped_mod ((x + p * 2 ^ 64) * 10)) as [q ->]. apply (wrapped_eq _ _ (p * 10 + q)). ring.
Qed.
Lemma modular_values :
  (forall w v, Term wrapping w v -> modular w v (Term exact)) /\ (forall w v, Prod wrapping w v -> modular w v (Prod exact)) /\
  (forall w v, Expr wrapping w v -> modular w v (Expr exact)).
Proof.
  assert (Hnum : forall w v, Number wrapping w v -> exists y, Number exact w (Some y) /\ v = Some (wrapped y)).
  { intros w v [w' Hw Hd]. destruct (decimal_some w' 0) as [y Ey]. exists y. split; [rewrite <- Ey; now constructor |].
    apply (decimal_modular w' 0); [| exact Ey]. symmetry. apply wrapped_id, fits_iff. pose proof pow63. lia. }
  unfold modular. apply Term_mut; intros; repeat rewrite ?in_app_iff in *; repeat match goal with
    | H : (~ In _ _) -> _ |- _ => destruct H as (? & ? & ->); [tauto |]
    | H : Number wrapping _ _ |- _ => apply Hnum in H as (? & ? & ->) end.
  - eexists. split; [apply term_num; eassumption | reflexivity].
  - eexists. split; [refine (term_neg exact _ _ (Some _) _ _ _ _); eassumption |]. cbn [op1 c_neg exact wrapping]. now rewrite wrapped_neg.
  - eexists. split; [apply term_paren; eassumption | reflexivity].
  - eexists. split; [apply prod_term; eassumption | reflexivity].
  - eexists. split; [refine (prod_mul exact _ (Some _) _ _ (Some _) _ _ _); eassumption |]. cbn [op2 c_mul exact wrapping]. now rewrite wrapped_mul.
  - exfalso. match goal with H : ~ _ |- _ => apply H end. right. left. now left.
  - eexists. split; [apply expr_prod; eassumption | reflexivity].
  - eexists. split; [refine (expr_add exact _ (Some _) _ _ (Some _) _ _ _); eassumption |]. cbn [op2 c_add exact wrapping]. now rewrite wrapped_add.
  - eexists. split; [refine (expr_sub exact _ (Some _) _ _ (Some _) _ _ _); eassumption |]. cbn [op2 c_sub exact wrapping]. now rewrite wrapped_sub.
Qed.
Theorem C55_modular_in_release n s z : 2 * length s + 2 <= n -> ~ In (chr "/") s -> parse_expr false n s = Ok z ->
  exists b w y, s = b ++ w /\ blank b /\ Expr exact w (Some y) /\ z = wrapped y.
Proof.
  intros Hn Hd E. apply C55_value in E as (b & w & -> & Hb & He); [| exact Hn].
  apply modular_values in He. destruct He as (y & He & Ey); [rewrite in_app_iff in Hd; tauto |]. injection Ey as ->. eauto 8.
Qed.

(** ** The exact value is not always returned *)
(** [9223372036854775808] is an expression; a debug build panics on it, a
    release build says it is negative. *)
Definition big : rstr := lit "9223372036854775808".
Theorem C55_exact_refuted : Expr exact big (Some (2 ^ 63)%Z) /\ parse_expr true 50 big = Panic /\ parse_expr false 50 big = Ok (- 2 ^ 63)%Z /\
  parse_expr false 50 (lit "1/0") = Panic.
Proof.
  split; [| repeat split; vm_compute; reflexivity]. constructor. constructor. rewrite <- (app_nil_r big). constructor; [| constructor].
  replace (Some (2 ^ 63)%Z) with (decimal exact (Some 0%Z) big) by (vm_compute; reflexivity).
  constructor; [discriminate |]. unfold is_digit. repeat constructor; vm_compute; discriminate.
Qed.
Example C55_ex :
  parse_expr true 100 (lit " 1 + -2 * (3 - 10/ 4) ") = Ok (-1)%Z /\ parse_expr true 100 (lit "7-2-1") = Ok 4%Z /\ parse_expr true 100 (lit "-7/2") = Ok (-3)%Z /\
  parse_expr true 100 (lit "1 2") = Err (InputContinues (LC 1 2)) /\ parse_expr true 100 (lit "--1") = Err (PTake (BadBranch (LC 1 1) (chr "-") digit_chars)).
Proof. repeat split; vm_compute; reflexivity. Qed.
Example C55_ex_bound : 2 * length (lit " 1 + -2 * (3 - 10/ 4) ") + 2 <= 100.
Proof. vm_compute. repeat constructor. Qed.

Print Assumptions C55_value.
Print Assumptions C55_error.
Print Assumptions C55_panic.
Print Assumptions C55_exact_in_debug.
Print Assumptions C55_release_agrees.
Print Assumptions C55_modular_in_release.
Print Assumptions C55_exact_refuted.
