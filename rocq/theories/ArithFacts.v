(** * ArithFacts: the hand-written arithmetic parser. *)
From Coq Require Import String ZArith.
From Verif Require Export Arith SpecArith RuntimeFacts.
From Coq Require Import List Lia.
Open Scope list_scope.
Local Opaque Z.pow.

(** ** Machine arithmetic *)
Lemma in_i64_fits z : in_i64 z = fits z.
Proof. unfold in_i64, fits, i64_min, i64_max. f_equal. apply Bool.eq_iff_eq_true. rewrite Z.leb_le, Z.ltb_lt. lia. Qed.
Lemma fits_iff z : fits z = true <-> (- 2 ^ 63 <= z < 2 ^ 63)%Z.
Proof. unfold fits. rewrite andb_true_iff, Z.leb_le, Z.ltb_lt. tauto. Qed.
Lemma pow64 : (2 ^ 64 = 2 * 2 ^ 63)%Z.
Proof. change 64%Z with (Z.succ 63). now rewrite Z.pow_succ_r by lia. Qed.
Lemma pow63 : (0 < 2 ^ 63)%Z.
Proof. apply Z.pow_pos_nonneg; lia. Qed.
Lemma wrapped_range z : fits (wrapped z) = true.
Proof.
  apply fits_iff. unfold wrapped. pose proof pow64. pose proof pow63. pose proof (Z.mod_pos_bound z (2 ^ 64)).
  destruct (Z.ltb_spec (z mod 2 ^ 64) (2 ^ 63)); lia.
Qed.
Lemma wrapped_id z : fits z = true -> wrapped z = z.
Proof.
  rewrite fits_iff. intros H. unfold wrapped. pose proof pow64. pose proof pow63. destruct (Z.le_gt_cases 0 z).
  - rewrite Z.mod_small by lia. destruct (Z.ltb_spec z (2 ^ 63)); lia.
  - replace (z mod 2 ^ 64)%Z with (z + 2 ^ 64)%Z; [destruct (Z.ltb_spec (z + 2 ^ 64) (2 ^ 63)); lia |].
    rewrite <- (Z.mod_small (z + 2 ^ 64) (2 ^ 64)) by lia. rewrite <- (Z.mul_1_l (2 ^ 64)) at 1. now rewrite Z.mod_add by lia.
Qed.
Lemma wrap_wrapped z : wrap z = wrapped z.
Proof.
  unfold wrap, wrapped. pose proof pow64. pose proof pow63. pose proof (Z.mod_pos_bound z (2 ^ 64)). pose proof (Z_div_mod_eq_full z (2 ^ 64)).
  set (q := (z / 2 ^ 64)%Z) in *. set (m := (z mod 2 ^ 64)%Z) in *. rewrite H2.
  destruct (Z.ltb_spec m (2 ^ 63)).
  - replace (2 ^ 64 * q + m + 2 ^ 63)%Z with (m + 2 ^ 63 + q * 2 ^ 64)%Z by ring. rewrite Z.mod_add, Z.mod_small by lia. lia.
  - replace (2 ^ 64 * q + m + 2 ^ 63)%Z with (m - 2 ^ 63 + (q + 1) * 2 ^ 64)%Z by lia. rewrite Z.mod_add, Z.mod_small by lia. lia.
Qed.
Lemma norm_machine k z : norm k z = if k then limit (Some z) else Some (wrapped z).
Proof.
  unfold norm, limit. rewrite in_i64_fits. destruct k; [reflexivity |]. destruct (fits z) eqn:E; [now rewrite wrapped_id | now rewrite wrap_wrapped].
Qed.
Lemma add_machine k x y : i64_add k x y = c_add (machine k) x y.
Proof. unfold i64_add. rewrite norm_machine. now destruct k. Qed.
Lemma sub_machine k x y : i64_sub k x y = c_sub (machine k) x y.
Proof. unfold i64_sub. rewrite norm_machine. now destruct k. Qed.
Lemma mul_machine k x y : i64_mul k x y = c_mul (machine k) x y.
Proof. unfold i64_mul. rewrite norm_machine. now destruct k. Qed.
Lemma neg_machine k x : i64_neg k x = c_neg (machine k) x.
Proof. unfold i64_neg. rewrite norm_machine. now destruct k. Qed.
Lemma div_machine k x y : i64_div x y = c_div (machine k) x y.
Proof. unfold i64_div. destruct k; cbn; rewrite in_i64_fits; now destruct (y =? 0)%Z. Qed.
Lemma mul_fits k x y z : c_mul (machine k) x y = Some z -> fits z = true.
Proof.
  destruct k; cbn.
  - destruct (fits (x * y)) eqn:E; intros [= <-]. exact E.
  - intros [= <-]. apply wrapped_range.
Qed.
Lemma push_machine k out d :
  push_digit k out d = op2 (c_add (machine k)) (op2 (c_mul (machine k)) (Some (match out with Some x => x | None => 0%Z end)) (Some 10%Z)) (Some d).
Proof.
  unfold push_digit. rewrite mul_machine. cbn [op2]. destruct (c_mul (machine k) _ 10) as [y |] eqn:E; [| reflexivity]. apply mul_fits in E.
  destruct (Z.eqb_spec d 0) as [-> | _]; [| apply add_machine]. destruct k; cbn; rewrite Z.add_0_r; [now rewrite E | now rewrite wrapped_id].
Qed.

(** ** Steps of the parser *)
Lemma then_ok {A B E S} (x : res A E * S) v (f : A -> S -> res B E * S) : fst x = Ok v -> then_ x f = f v (snd x).
Proof. unfold then_. now intros ->. Qed.
Lemma then_panic {A B E S} (x : res A E * S) (f : A -> S -> res B E * S) : fst x = Panic -> fst (then_ x f) = Panic.
Proof. unfold then_. now intros ->. Qed.

Lemma consume_char c u r st : at_cursor u (c :: r) st ->
  fst (consume_str [c] st) = Ok tt /\ at_cursor (u ++ [c]) r (snd (consume_str [c] st)).
Proof.
  intros H. pose proof (consume_loop_spec [c] [c] 0 u (c :: r) st H) as P. cbn [lcp] in P. rewrite N.eqb_refl in P.
  unfold consume_str. destruct P as (r' & E & P). injection E as <-. destruct (consume_loop [c] [c] 0 st) as [x st']. cbn [fst snd].
  destruct P as [P1 P2]. split; [| exact P1]. cbn in P2. now destruct r.
Qed.
Lemma consume_other c d u r st : at_cursor u r st -> hd_error r = Some d -> d <> c -> exists e, fst (consume_str [c] st) = Err e.
Proof.
  intros H Hd Hn. destruct r as [| d' r]; [discriminate Hd |]. injection Hd as ->. unfold consume_str. cbn [consume_loop].
  destruct (peek_at _ _ _ H) as [P1 P2]. destruct (iw_peek st) as [p st1]. cbn [fst snd] in *. rewrite P1. cbn [hd_error].
  destruct (N.eqb_spec d c) as [-> | _]; [congruence |]. cbn. eauto.
Qed.
Lemma consume_end c u st : at_cursor u [] st -> exists e, fst (consume_str [c] st) = Err e.
Proof.
  intros H. unfold consume_str. cbn [consume_loop].
  destruct (peek_at _ _ _ H) as [P1 P2]. destruct (iw_peek st) as [p st1]. cbn [fst snd] in *. rewrite P1. cbn. eauto.
Qed.
Lemma consume_char_inv c u r st : at_cursor u r st -> fst (consume_str [c] st) = Ok tt ->
  exists r', r = c :: r' /\ at_cursor (u ++ [c]) r' (snd (consume_str [c] st)).
Proof.
  intros H E. destruct r as [| d r].
  - destruct (consume_end c u st H) as [e He]. congruence.
  - destruct (N.eq_dec d c) as [-> | Hn]; [exists r; split; [reflexivity | now apply consume_char] |].
    destruct (consume_other c d u (d :: r) st H eq_refl Hn) as [e He]. congruence.
Qed.
Lemma consume_char_cases c st : exists r, fst (consume_str [c] st) = r /\ (r = Ok tt \/ exists e, r = Err e).
Proof.
  eexists. split; [reflexivity |]. unfold consume_str. cbn [consume_loop]. destruct (iw_peek st) as [[d |] st1]; cbn.
  - destruct (N.eqb d c); cbn; eauto.
  - eauto.
Qed.

Lemma prefix_blank r : blank (prefix_while (N.eqb 32) r).
Proof. induction r as [| c r IH]; cbn [prefix_while]; [constructor |]. destruct (N.eqb_spec 32 c) as [<- | _]; constructor; auto. Qed.
Lemma prefix_head f r r' : r = prefix_while f r ++ r' -> forall c, hd_error r' = Some c -> f c = false.
Proof.
  revert r'. induction r as [| d r IH]; intros r' E c Hc.
  - cbn in E. subst r'. discriminate Hc.
  - cbn in E. destruct (f d) eqn:Ed.
    + injection E as E. now apply (IH r').
    + cbn in E. subst r'. injection Hc as <-. exact Ed.
Qed.
Lemma prefix_blank_app s r : blank s -> hd_error r <> Some 32%N -> prefix_while (N.eqb 32) (s ++ r) = s.
Proof.
  intros Hs Hr. induction Hs as [| c s <- _ IH]; cbn [app prefix_while].
  - destruct r as [| d r]; [reflexivity |]. cbn [prefix_while]. destruct (N.eqb_spec 32 d) as [<- | _]; [now elim Hr | reflexivity].
  - rewrite N.eqb_refl. now rewrite IH.
Qed.
Lemma spaces_at u r st : at_cursor u r st -> exists s r', r = s ++ r' /\ blank s /\ hd_error r' <> Some 32%N /\ at_cursor (u ++ s) r' (spaces st).
Proof.
  intros H. destruct (skip_while_spec (N.eqb 32) u r st H) as (st' & r' & E & Er & Ha). exists (prefix_while (N.eqb 32) r), r'. unfold spaces. rewrite E.
  split; [exact Er |]. split; [apply prefix_blank |]. split; [| exact Ha]. intros Hc. now apply (prefix_head _ _ _ Er) in Hc.
Qed.
Lemma spaces_exact u s r st : at_cursor u (s ++ r) st -> blank s -> hd_error r <> Some 32%N -> at_cursor (u ++ s) r (spaces st).
Proof.
  intros H Hs Hr. destruct (skip_while_spec (N.eqb 32) u (s ++ r) st H) as (st' & r' & E & Er & Ha). unfold spaces. rewrite E.
  rewrite (prefix_blank_app s r Hs Hr) in Er, Ha. apply app_inv_head in Er. now subst r'.
Qed.

Lemma digit_of_some c d : digit_of c = Some d <-> is_digit c /\ d = digit_value c.
Proof.
  unfold digit_of, is_digit, digit_value. destruct (N.leb_spec 48 c), (N.leb_spec c 57); cbn; (split; [intros [= <-]; split; [lia | reflexivity] || discriminate | intros [? ->]; try lia; reflexivity]).
Qed.
Lemma digit_of_none c : digit_of c = None <-> ~ is_digit c.
Proof.
  destruct (digit_of c) as [d |] eqn:E.
  - apply digit_of_some in E as [E _]. split; [discriminate | tauto].
  - split; [| reflexivity]. intros _ H. assert (digit_of c = Some (digit_value c)) by now apply digit_of_some. congruence.
Qed.
Lemma digit_not c d : is_digit c -> ~ is_digit d -> c <> d.
Proof. intros H1 H2 ->. auto. Qed.
Lemma nondigit_ops : ~ is_digit (chr "-") /\ ~ is_digit (chr "(") /\ ~ is_digit (chr ")") /\ ~ is_digit (chr "*") /\ ~ is_digit (chr "/") /\ ~ is_digit (chr "+") /\ ~ is_digit 32%N.
Proof. unfold is_digit. cbn. repeat split; lia. Qed.

(** ** Completeness *)
(** What may come after an operand: not a space, not a digit. *)
Definition after_term (r : rstr) : Prop := forall c, hd_error r = Some c -> c <> 32%N /\ ~ is_digit c.
Definition result (x : res Z take_error * iw) (v : option Z) (u r : rstr) : Prop :=
  match v with Some z => fst x = Ok z /\ at_cursor u r (snd x) | None => fst x = Panic end.

Section Complete.
  Variable k : bool.
  Notation C := (machine k).
  Lemma decimal_none w : decimal C None w = None.
  Proof. induction w as [| c w IH]; [reflexivity |]. exact IH. Qed.
  Lemma take_number_complete w : forall n out u r st, Forall is_digit w -> at_cursor u (w ++ r) st -> (forall c, hd_error r = Some c -> ~ is_digit c) ->
    length w < n -> (out <> None \/ w <> []) -> result (take_number k n out st) (decimal C (Some (match out with Some x => x | None => 0%Z end)) w) (u ++ w) r.
  Proof.
    induction w as [| c w IH]; intros [| n] out u r st Hw Ha Hr Hn Ho; try (cbn in Hn; lia); cbn [take_number]; destruct (peek_at _ _ _ Ha) as [P1 P2];
      destruct (iw_peek st) as [p st1]; cbn [fst snd] in *; subst p.
    - cbn [app]. destruct out as [x |]; [| now destruct Ho]. cbn [decimal]. rewrite app_nil_r. destruct (hd_error r) as [c |] eqn:E.
      + destruct (digit_of c) eqn:Ed; [| now split]. apply digit_of_some in Ed as [Ed _]. now elim (Hr c).
      + now split.
    - apply Forall_cons_iff in Hw as [Hc Hw]. cbn [hd_error app]. rewrite (proj2 (digit_of_some c _) (conj Hc eq_refl)).
      destruct (consume_char c _ _ _ P2) as [E1 A1]. rewrite (then_ok _ _ _ E1). rewrite push_machine. cbn [decimal]. set (x := op2 (c_add _) _ _).
      destruct x as [y |]; cbn [or_panic].
      + unfold then_ at 1. cbn [fst snd]. change (c :: w) with ([c] ++ w). rewrite app_assoc. apply (IH n (Some y)); auto; [cbn in Hn; lia | left; discriminate].
      + rewrite decimal_none. reflexivity.
  Qed.

  Definition term_complete (term : iw -> res Z take_error * iw) (w : rstr) (v : option Z) : Prop := forall u r st, at_cursor u (w ++ r) st -> after_term r ->
    result (term st) v (u ++ w) r.
  Definition prod_complete n (w : rstr) (v : option Z) : Prop := forall u r st, at_cursor u (w ++ r) st -> after_term r ->
    match v with
    | Some z => exists j st', j <= length w /\ at_cursor (u ++ w) r st' /\ forall m, take_product k (take_term k n) (j + m) st = product_loop k (take_term k n) m z st'
    | None => forall m, length w < m -> fst (take_product k (take_term k n) m st) = Panic
    end.
  Definition expr_complete n m (w : rstr) (v : option Z) : Prop := forall u r st, at_cursor u (w ++ r) st -> after_term r ->
    (forall c, hd_error r = Some c -> c <> chr "*" /\ c <> chr "/") ->
    match v with
    | Some z => exists j st', j <= length w /\ at_cursor (u ++ w) r st' /\ forall l, take_expr_of k (take_product k (take_term k n) m) (j + l) st = expr_loop k (take_product k (take_term k n) m) l z st'
    | None => forall l, length w < l -> fst (take_expr_of k (take_product k (take_term k n) m) l st) = Panic
    end.
  Lemma term_start w v : Term C w v -> exists c w', w = c :: w' /\ c <> 32%N /\ (c = chr "-" \/ c = chr "(" \/ is_digit c).
  Proof.
    intros H. destruct H as [w v s Hn Hs | s w v s' Hs Hn Hs' | s w v s' Hs He Hs'].
    - destruct Hn as [w Hw Hd]. destruct w as [| c w]; [now elim Hw |]. apply Forall_cons_iff in Hd as [Hd _]. exists c, (w ++ s). split; [reflexivity |].
      split; [| auto]. unfold is_digit in Hd. lia.
    - eexists _, _. split; [reflexivity |]. cbn. split; [lia | auto].
    - eexists _, _. split; [reflexivity |]. cbn. split; [lia | auto].
  Qed.
  Lemma prod_start w v : Prod C w v -> exists c w', w = c :: w' /\ c <> 32%N /\ (c = chr "-" \/ c = chr "(" \/ is_digit c).
  Proof.
    induction 1 as [w v H | w v s w' v' H IH Hs Ht | w v s w' v' H IH Hs Ht]; [now apply term_start in H | |];
      destruct IH as (c & w0 & -> & Hc); eexists _, _; (split; [reflexivity | exact Hc]).
  Qed.
  Lemma expr_start w v : Expr C w v -> exists c w', w = c :: w' /\ c <> 32%N /\ (c = chr "-" \/ c = chr "(" \/ is_digit c).
  Proof.
    induction 1 as [w v H | w v s w' v' H IH Hs Ht | w v s w' v' H IH Hs Ht]; [now apply prod_start in H | |];
      destruct IH as (c & w0 & -> & Hc); eexists _, _; (split; [reflexivity | exact Hc]).
  Qed.
End Complete.

Scheme Term_mi := Minimality for Term Sort Prop
with Prod_mi := Minimality for Prod Sort Prop
with Expr_mi := Minimality for Expr Sort Prop.
Combined Scheme Term_mut from Term_mi, Prod_mi, Expr_mi.

Lemma peek_as u r st : at_cursor u r st -> exists st1, iw_peek st = (hd_error r, st1) /\ at_cursor u r st1.
Proof. intros H. destruct (peek_at _ _ _ H) as [P1 P2]. destruct (iw_peek st) as [p st1]. cbn [fst snd] in *. subst p. eauto. Qed.
Lemma after_op c r : c <> 32%N -> ~ is_digit c -> after_term (c :: r).
Proof. intros H1 H2 d [= <-]. auto. Qed.
Lemma not_digit_of c : ~ is_digit c -> digit_of c = None.
Proof. apply digit_of_none. Qed.

(** One more operand. *)
Definition operand_run (operand : iw -> res Z take_error * iw) c (f : Z -> Z -> option Z) z (loop : Z -> iw -> res Z take_error * iw) st :=
  then_ (consume_str [c] st) (fun _ st2 => then_ (operand (spaces st2)) (fun v st3 => then_ (or_panic (f z v) st3) loop)).
Lemma operand_step (operand : iw -> res Z take_error * iw) c (f g : Z -> Z -> option Z) u s w v r z st :
  (forall x y, f x y = g x y) -> at_cursor u ([c] ++ s ++ w ++ r) st -> blank s -> (exists c0 w0, w = c0 :: w0 /\ c0 <> 32%N) ->
  (forall u' st', at_cursor u' (w ++ r) st' -> result (operand st') v (u' ++ w) r) ->
  match op2 g (Some z) v with
  | Some y => exists st', at_cursor (u ++ [c] ++ s ++ w) r st' /\ forall loop, operand_run operand c f z loop st = loop y st'
  | None => forall loop, fst (operand_run operand c f z loop st) = Panic
  end.
Proof.
  intros Hf Ha Hs (c0 & w0 & Ew & Hc0) Hc. unfold operand_run.
  destruct (consume_char c u (s ++ w ++ r) st Ha) as [E1 A2].
  pose proof (spaces_exact _ _ _ _ A2 Hs) as A3. rewrite Ew in A3. specialize (A3 ltac:(intros [= E]; congruence)). rewrite <- Ew in A3.
  specialize (Hc _ _ A3). destruct v as [y |]; cbn [result op2] in *.
  2: { intros loop. rewrite (then_ok _ _ _ E1). now apply then_panic. }
  destruct Hc as [E3 A4]. rewrite <- Hf. destruct (f z y) as [x |] eqn:Ef.
  - rewrite <- !app_assoc in A4. eexists. split; [exact A4 |]. intros loop. rewrite (then_ok _ _ _ E1), (then_ok _ _ _ E3), Ef. reflexivity.
  - intros loop. rewrite (then_ok _ _ _ E1), (then_ok _ _ _ E3), Ef. reflexivity.
Qed.

Section Complete2.
  Variable k : bool.
  Notation C := (machine k).
  (** After a product, one more factor. *)
  Lemma prod_step n w v s w' v' c f g :
    (forall x y, f x y = g x y) -> c <> 32%N -> ~ is_digit c ->
    (forall m z st st2 p, iw_peek st = (p, st2) -> p = Some c -> product_loop k (take_term k n) (S m) z st = operand_run (take_term k n) c f z (product_loop k (take_term k n) m) st2) ->
    prod_complete k n w v -> blank s -> Term C w' v' -> term_complete (take_term k n) w' v' ->
    prod_complete k n (w ++ [c] ++ s ++ w') (op2 g v v').
  Proof.
    intros Hf Hc1 Hc2 Hl IH Hs Ht Hc u r st Ha Hr. rewrite <- !app_assoc in Ha. specialize (IH u ([c] ++ s ++ w' ++ r) st Ha (after_op _ _ Hc1 Hc2)).
    destruct v as [z |].
    2: { cbn [op2]. intros m Hm. apply IH. rewrite !app_length in Hm. lia. }
    destruct IH as (j & st1 & Hj & A1 & E1). destruct (peek_as _ _ _ A1) as (st2 & Ep & A2). cbn [hd_error app] in Ep.
    destruct (term_start k w' v' Ht) as (c0 & w0 & Ew & Hc0 & _).
    pose proof (operand_step (take_term k n) c f g (u ++ w) s w' v' r z st2
      Hf A2 Hs (ex_intro _ c0 (ex_intro _ w0 (conj Ew Hc0))) (fun u' st' H => Hc u' r st' H Hr)) as Hstep.
    destruct (op2 g (Some z) v') as [y |].
    - destruct Hstep as (st3 & A3 & E3). exists (S j), st3. split; [rewrite !app_length; cbn; lia |]. split; [rewrite <- !app_assoc in A3; exact A3 |].
      intros m. replace (S j + m) with (j + S m) by lia. rewrite E1, (Hl m z st1 st2 _ Ep eq_refl). apply E3.
    - intros m Hm. rewrite !app_length in Hm. cbn in Hm. replace m with (j + S (m - j - 1)) by lia. rewrite E1, (Hl _ z st1 st2 _ Ep eq_refl). apply Hstep.
  Qed.
  (** A product alone. *)
  Lemma prod_done n w v : prod_complete k n w v -> forall u r st m, at_cursor u (w ++ r) st -> after_term r ->
    (forall c, hd_error r = Some c -> c <> chr "*" /\ c <> chr "/") -> length w < m -> result (take_product k (take_term k n) m st) v (u ++ w) r.
  Proof.
    intros H u r st m Ha Hr Hr2 Hm. specialize (H u r st Ha Hr). destruct v as [z |]; [| now apply H].
    destruct H as (j & st1 & Hj & A1 & E1). replace m with (j + S (m - j - 1)) by lia. rewrite E1. cbn [product_loop].
    destruct (peek_as _ _ _ A1) as (st2 & -> & A2). destruct (hd_error r) as [c |] eqn:Er; [| now split].
    destruct (Hr2 c eq_refl) as [H1 H2]. rewrite (proj2 (N.eqb_neq _ _) H1), (proj2 (N.eqb_neq _ _) H2). now split.
  Qed.
  Lemma expr_step n m w v s w' v' c f g :
    (forall x y, f x y = g x y) -> c <> 32%N -> ~ is_digit c -> c <> chr "*" -> c <> chr "/" -> length w' < m ->
    (forall l z st st2 p, iw_peek st = (p, st2) -> p = Some c ->
       expr_loop k (take_product k (take_term k n) m) (S l) z st = operand_run (take_product k (take_term k n) m) c f z (expr_loop k (take_product k (take_term k n) m) l) st2) ->
    expr_complete k n m w v -> blank s -> Prod C w' v' -> prod_complete k n w' v' ->
    expr_complete k n m (w ++ [c] ++ s ++ w') (op2 g v v').
  Proof.
    intros Hf Hc1 Hc2 Hc3 Hc4 Hm Hl IH Hs Ht Hc u r st Ha Hr Hr2. rewrite <- !app_assoc in Ha.
    specialize (IH u ([c] ++ s ++ w' ++ r) st Ha (after_op _ _ Hc1 Hc2) ltac:(intros d [= <-]; auto)).
    destruct v as [z |].
    2: { cbn [op2]. intros l Hl2. apply IH. rewrite !app_length in Hl2. lia. }
    destruct IH as (j & st1 & Hj & A1 & E1). destruct (peek_as _ _ _ A1) as (st2 & Ep & A2). cbn [hd_error app] in Ep.
    destruct (prod_start k w' v' Ht) as (c0 & w0 & Ew & Hc0 & _).
    pose proof (operand_step (take_product k (take_term k n) m) c f g (u ++ w) s w' v' r z st2
      Hf A2 Hs (ex_intro _ c0 (ex_intro _ w0 (conj Ew Hc0))) (fun u' st' H => prod_done n w' v' Hc u' r st' m H Hr Hr2 Hm)) as Hstep.
    destruct (op2 g (Some z) v') as [y |].
    - destruct Hstep as (st3 & A3 & E3). exists (S j), st3. split; [rewrite !app_length; cbn; lia |]. split; [rewrite <- !app_assoc in A3; exact A3 |].
      intros l. replace (S j + l) with (j + S l) by lia. rewrite E1, (Hl l z st1 st2 _ Ep eq_refl). apply E3.
    - intros l Hl2. rewrite !app_length in Hl2. cbn in Hl2. replace l with (j + S (l - j - 1)) by lia. rewrite E1, (Hl _ z st1 st2 _ Ep eq_refl). apply Hstep.
  Qed.
  Lemma expr_done n m w v : expr_complete k n m w v -> forall u r st l, at_cursor u (w ++ r) st -> after_term r ->
    (forall c, hd_error r = Some c -> c <> chr "*" /\ c <> chr "/" /\ c <> chr "+" /\ c <> chr "-") -> length w < l ->
    result (take_expr_of k (take_product k (take_term k n) m) l st) v (u ++ w) r.
  Proof.
    intros H u r st l Ha Hr Hr2 Hm. specialize (H u r st Ha Hr (fun c Hc => conj (proj1 (Hr2 c Hc)) (proj1 (proj2 (Hr2 c Hc))))). destruct v as [z |]; [| now apply H].
    destruct H as (j & st1 & Hj & A1 & E1). replace l with (j + S (l - j - 1)) by lia. rewrite E1. cbn [expr_loop].
    destruct (peek_as _ _ _ A1) as (st2 & -> & A2). destruct (hd_error r) as [c |] eqn:Er; [| now split].
    destruct (Hr2 c eq_refl) as (_ & _ & H1 & H2). rewrite (proj2 (N.eqb_neq _ _) H1), (proj2 (N.eqb_neq _ _) H2). now split.
  Qed.

  (** The end of [take_term]. *)
  Lemma term_end x v u s r : result x v u (s ++ r) -> blank s -> after_term r -> result (then_ x (fun v st2 => (Ok v, spaces st2))) v (u ++ s) r.
  Proof.
    intros H Hs Hr. destruct v as [z |]; cbn [result] in *; [| now apply then_panic]. destruct H as [E A]. rewrite (then_ok _ _ _ E). split; [reflexivity |].
    apply spaces_exact; auto. intros E2. destruct (Hr 32%N E2) as [Hx _]. now apply Hx.
  Qed.
  Theorem complete :
    (forall w v, Term C w v -> forall n, 2 * length w + 2 <= n -> term_complete (take_term k n) w v) /\
    (forall w v, Prod C w v -> forall n, 2 * length w + 2 <= n -> prod_complete k n w v) /\
    (forall w v, Expr C w v -> forall n m, 2 * length w + 2 <= n -> length w < m -> expr_complete k n m w v).
  Proof.
    destruct nondigit_ops as (D1 & D2 & D3 & D4 & D5 & D6 & D7).
    apply Term_mut.
    - intros w v s [w' Hw Hd] Hs [| n] Hn u r st Ha Hr; [lia |]. cbn [take_term]. rewrite app_length in Hn. rewrite <- app_assoc in Ha.
      destruct (peek_as _ _ _ Ha) as (st1 & -> & A1). rewrite (app_assoc u w' s). apply term_end; [| exact Hs | exact Hr].
      destruct w' as [| c w']; [now elim Hw |]. cbn [app hd_error]. pose proof (Forall_inv Hd) as Hc.
      rewrite (proj2 (N.eqb_neq _ _) (digit_not _ _ Hc D1)), (proj2 (digit_of_some c _) (conj Hc eq_refl)).
      apply (take_number_complete k (c :: w') n None); auto; [| lia].
      intros d Hd2. destruct s as [| b s]; [now apply Hr |]. apply Forall_inv in Hs. injection Hd2 as <-. now rewrite <- Hs.
    - intros s w v s' Hs [w' Hw Hd] Hs' [| n] Hn u r st Ha Hr; [lia |]. cbn [take_term]. rewrite !app_length in Hn. rewrite <- !app_assoc in Ha.
      destruct (peek_as _ _ _ Ha) as (st1 & -> & A1). replace (u ++ lit "-" ++ s ++ w' ++ s') with ((u ++ lit "-" ++ s ++ w') ++ s') by now rewrite <- !app_assoc. apply term_end; [| exact Hs' | exact Hr].
      change (hd_error (lit "-" ++ s ++ w' ++ s' ++ r)) with (Some (chr "-")). cbn iota. rewrite N.eqb_refl.
      destruct (consume_char _ _ _ _ A1) as [E1 A2]. change (lit "-") with [chr "-"]. rewrite (then_ok _ _ _ E1).
      destruct w' as [| c w']; [now elim Hw |]. pose proof (Forall_inv Hd) as Hc.
      apply (spaces_exact _ s ((c :: w') ++ s' ++ r)) in A2; [| exact Hs | intros [= ->]; now apply D7].
      pose proof (take_number_complete k (c :: w') n None _ _ _ Hd A2) as P. cbn zeta in P.
      assert (Hend : forall d, hd_error (s' ++ r) = Some d -> ~ is_digit d).
      { intros d Hd2. destruct s' as [| b s']; [now apply Hr |]. apply Forall_inv in Hs'. injection Hd2 as <-. now rewrite <- Hs'. }
      specialize (P Hend ltac:(lia) ltac:(auto)). destruct (decimal C (Some 0%Z) (c :: w')) as [z |] eqn:Ez; cbn [result op1] in *; [| now apply then_panic].
      destruct P as [E3 A3]. rewrite (then_ok _ _ _ E3), neg_machine. destruct (c_neg C z); cbn; [| reflexivity]. split; [reflexivity |].
      now rewrite <- !app_assoc in *.
    - intros s w v s' Hs He IH Hs' [| n] Hn u r st Ha Hr; [lia |]. cbn [take_term]. rewrite !app_length in Hn. cbn in Hn. rewrite <- !app_assoc in Ha.
      destruct (peek_as _ _ _ Ha) as (st1 & -> & A1). replace (u ++ lit "(" ++ s ++ w ++ lit ")" ++ s') with ((u ++ lit "(" ++ s ++ w ++ lit ")") ++ s') by now rewrite <- !app_assoc. apply term_end; [| exact Hs' | exact Hr].
      change (hd_error (lit "(" ++ s ++ w ++ lit ")" ++ s' ++ r)) with (Some (chr "(")). cbn iota.
      change (N.eqb (chr "(") (chr "-")) with false. cbn iota. rewrite (not_digit_of _ D2), N.eqb_refl.
      destruct (consume_char (chr "(") _ _ _ A1) as [E1 A2]. change (lit "(") with [chr "("]. rewrite (then_ok _ _ _ E1).
      destruct (expr_start k w v He) as (c0 & w0 & Ew & Hc0 & _).
      apply (spaces_exact _ s (w ++ lit ")" ++ s' ++ r)) in A2; [| exact Hs | rewrite Ew; intros [= E]; congruence].
      pose proof (expr_done n n w v (IH n n ltac:(lia) ltac:(lia)) _ _ _ n A2 (after_op (chr ")") _ ltac:(discriminate) D3)
        ltac:(intros d [= <-]; repeat split; discriminate) ltac:(lia)) as P.
      set (x := take_expr_of k (take_product k (take_term k n) n) n (spaces (snd (consume_str [chr "("] st1)))) in *. clearbody x. destruct x as [o st3].
      destruct v as [z |]; cbn [result fst snd] in *; [| now subst o]. destruct P as [-> A3].
      destruct (consume_char (chr ")") _ _ _ A3) as [E4 A4]. change (lit ")") with [chr ")"]. rewrite (then_ok _ _ _ E4). split; [reflexivity |]. cbn [snd].
      now rewrite <- !app_assoc in *.
    - intros w v Ht IH n Hn u r st Ha Hr. specialize (IH n Hn u r st Ha Hr). unfold take_product. destruct v as [z |]; cbn [result] in IH.
      + destruct IH as [E A]. exists 0, (snd (take_term k n st)). split; [lia |]. split; [exact A |]. intros m. now rewrite (then_ok _ _ _ E).
      + intros m _. now apply then_panic.
    - intros w v s w' v' Hp IH Hs Ht IHt n Hn. rewrite !app_length in Hn.
      apply (prod_step n w v s w' v' (chr "*") (i64_mul k) (c_mul C)); auto; [apply mul_machine | discriminate | | apply IH; lia | apply IHt; lia].
      intros m z st st2 p Ep ->. cbn [product_loop]. rewrite Ep. reflexivity.
    - intros w v s w' v' Hp IH Hs Ht IHt n Hn. rewrite !app_length in Hn.
      apply (prod_step n w v s w' v' (chr "/") i64_div (c_div C)); auto; [apply div_machine | discriminate | | apply IH; lia | apply IHt; lia].
      intros m z st st2 p Ep ->. cbn [product_loop]. rewrite Ep. reflexivity.
    - intros w v Hp IH n m Hn Hm u r st Ha Hr Hr2. pose proof (prod_done n w v (IH n Hn) u r st m Ha Hr Hr2 Hm) as P. unfold take_expr_of.
      destruct v as [z |]; cbn [result] in P.
      + destruct P as [E A]. exists 0. eexists. split; [lia |]. split; [exact A |]. intros l. now rewrite (then_ok _ _ _ E).
      + intros l _. now apply then_panic.
    - intros w v s w' v' Hp IH Hs Ht IHt n m Hn Hm. rewrite !app_length in Hn, Hm.
      apply (expr_step n m w v s w' v' (chr "+") (i64_add k) (c_add C)); auto; try discriminate; [apply add_machine | lia | | apply IH; lia | apply IHt; lia].
      intros l z st st2 p Ep ->. cbn [expr_loop]. rewrite Ep. reflexivity.
    - intros w v s w' v' Hp IH Hs Ht IHt n m Hn Hm. rewrite !app_length in Hn, Hm.
      apply (expr_step n m w v s w' v' (chr "-") (i64_sub k) (c_sub C)); auto; try discriminate; [apply sub_machine | lia | | apply IH; lia | apply IHt; lia].
      intros l z st st2 p Ep ->. cbn [expr_loop]. rewrite Ep. reflexivity.
  Qed.
End Complete2.

