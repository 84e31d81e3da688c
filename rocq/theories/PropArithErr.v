(** * PropArithErr: the errors of the hand-written arithmetic parser (C99). *)
From Coq Require Import String ZArith.
From Verif Require Import ArithErr2.
From Coq Require Import List Lia.
Import ListNotations.
Open Scope list_scope.
Local Opaque Z.pow.

Lemma run_count u : forall q D q' D', run (q, D) u = Some (q', D') -> D + count (chr "(") u = D' + count (chr ")") u.
Proof.
  induction u as [| c u IH]; intros q D q' D' E; [cbn in *; injection E as _ <-; reflexivity |]. cbn [run] in E. destruct (step (q, D) c) as [[q1 D1] |] eqn:Es; [| discriminate E]. apply IH in E. cbn [count].
  assert (K : D + (if N.eqb (chr "(") c then 1 else 0) = D1 + (if N.eqb (chr ")") c then 1 else 0)); [| lia].
  assert (Ka : forall d q1 D1, after_step d c = Some (q1, D1) -> d + (if N.eqb (chr "(") c then 1 else 0) = D1 + (if N.eqb (chr ")") c then 1 else 0)).
  { intros d q2 D2. unfold after_step. destruct (N.eqb_spec c 32) as [-> | _]; [intros [= _ <-]; reflexivity |]. destruct (is_oper c) eqn:Eo.
    - intros [= _ <-]. unfold is_oper in Eo. rewrite !orb_true_iff, !N.eqb_eq in Eo. destruct Eo as [[[-> | ->] | ->] | ->]; reflexivity.
    - destruct (N.eqb_spec c (chr ")")) as [-> | _]; [| discriminate]. destruct d as [| d]; [discriminate |]. intros [= _ <-]. change (N.eqb (chr "(") (chr ")")) with false. rewrite N.eqb_refl. lia. }
  assert (Kd : is_dig c = true -> D + (if N.eqb (chr "(") c then 1 else 0) = D + (if N.eqb (chr ")") c then 1 else 0)).
  { intros Hd. apply is_dig_iff, digit_facts in Hd as (_ & _ & E1 & E2 & _). now rewrite N.eqb_sym, E1, N.eqb_sym, E2. }
  destruct q; cbn [step] in Es.
  - destruct (N.eqb_spec c 32) as [-> | _]; [injection Es as _ <-; reflexivity |]. destruct (N.eqb_spec c (chr "-")) as [-> | _]; [injection Es as _ <-; reflexivity |]. destruct (is_dig c); [injection Es as _ <-; auto |].
    destruct (N.eqb_spec c (chr "(")) as [-> | _]; [| discriminate Es]. injection Es as _ <-. change (N.eqb (chr ")") (chr "(")) with false. rewrite N.eqb_refl. lia.
  - destruct (N.eqb_spec c 32) as [-> | _]; [injection Es as _ <-; reflexivity |]. destruct (is_dig c); [injection Es as _ <-; auto | discriminate Es].
  - destruct (is_dig c); [injection Es as _ <-; auto | eauto].
  - eauto.
Qed.
(** No line ends in a viable text. *)
Definition no_break (c : char) : Prop := (c < 128)%N /\ c <> 10%N /\ c <> 11%N /\ c <> 12%N /\ c <> 13%N.
Lemma step_char q c : step q c <> None -> no_break c.
Proof.
  intros H. assert (K : c = 32%N \/ is_oper c = true \/ is_dig c = true \/ c = chr "(" \/ c = chr ")").
  { destruct q as [m d]. assert (Ka : after_step d c <> None -> c = 32%N \/ is_oper c = true \/ is_dig c = true \/ c = chr "(" \/ c = chr ")").
    { unfold after_step. destruct (N.eqb_spec c 32); [tauto |]. destruct (is_oper c); [tauto |]. destruct (N.eqb_spec c (chr ")")); [tauto | congruence]. }
    destruct m; cbn [step] in H; auto.
    - destruct (N.eqb_spec c 32); [tauto |]. destruct (N.eqb_spec c (chr "-")) as [Ec | _]; [rewrite Ec; right; now left |]. destruct (is_dig c); [tauto |]. destruct (N.eqb_spec c (chr "(")); [tauto | congruence].
    - destruct (N.eqb_spec c 32); [tauto |]. destruct (is_dig c); [tauto | congruence].
    - destruct (is_dig c); auto. }
  unfold no_break. destruct K as [-> | [K | [K | [-> | ->]]]]; try (cbn; lia).
  - unfold is_oper in K. rewrite !orb_true_iff, !N.eqb_eq in K. destruct K as [[[-> | ->] | ->] | ->]; cbn; lia.
  - apply is_dig_iff in K. unfold is_digit in K. lia.
Qed.
Lemma run_chars u : forall q q', run q u = Some q' -> Forall no_break u.
Proof. induction u as [| c u IH]; intros q q' E; [constructor |]. cbn [run] in E. destruct (step q c) as [q1 |] eqn:Es; [| discriminate E]. constructor; [apply (step_char q); congruence | eauto]. Qed.
Lemma pos_plain u : Forall no_break u -> forall nx, spec_pos u nx = LC 1 (length u).
Proof.
  induction u as [| c u IH] using rev_ind; intros H nx; [reflexivity |]. apply Forall_app in H as [H Hc]. inversion Hc as [| ? ? (H1 & H2 & H3 & H4 & H5) _]; subst.
  rewrite spec_pos_snoc, (IH H). replace (ends_line c nx) with false; [rewrite app_length; cbn; unfold pos_advance; cbn; f_equal; lia |].
  symmetry. unfold ends_line. cbn [existsb line_terminators]. repeat rewrite (proj2 (N.eqb_neq c _)) by lia. reflexivity.
Qed.
Lemma step_viable u q d c : run (WantTerm, 0) u = Some (q, d) -> (viable (u ++ [c]) <-> step (q, d) c <> None).
Proof.
  intros E. rewrite viable_run, run_app, E. cbn [run]. destruct (step (q, d) c); split; [congruence | eauto | intros [x [=]] | congruence].
Qed.
Lemma expected_iff q d c : ~ after q -> (In c (match q with WantNumber => digit_chars | _ => lit "-(0123456789" end) <-> c <> 32%N /\ step (q, d) c <> None).
Proof.
  assert (Dg : In c digit_chars <-> is_dig c = true).
  { rewrite is_dig_iff. unfold is_digit. change digit_chars with [48; 49; 50; 51; 52; 53; 54; 55; 56; 57]%N. cbn [In]. lia. }
  intros Hq. destruct q; [| | exfalso; apply Hq; now left | exfalso; apply Hq; now right].
  - change (lit "-(0123456789") with (chr "-" :: chr "(" :: digit_chars). cbn [In step]. rewrite Dg. destruct (N.eqb_spec c 32) as [-> | Hc]; [split; [intros [X | [X | X]]; discriminate X | tauto] |].
    destruct (N.eqb_spec c (chr "-")) as [-> | H1]; [split; [intros _; split; [exact Hc | congruence] | now left] |]. destruct (is_dig c) eqn:Ed; [split; [intros _; split; [exact Hc | congruence] | tauto] |].
    destruct (N.eqb_spec c (chr "(")) as [-> | H2]; [split; [intros _; split; [exact Hc | congruence] | tauto] |]. intuition congruence.
  - cbn [step]. rewrite Dg. destruct (N.eqb_spec c 32) as [-> | Hc]; [split; [intros X; discriminate X | tauto] |]. destruct (is_dig c); intuition congruence.
Qed.
Lemma first_fitting u q d rest e : run (WantTerm, 0) u = Some (q, d) -> (forall c r, rest = c :: r -> step (q, d) c = None) -> (after q -> 0 < d) -> d <= closers rest -> e = first_err u q rest -> fitting u rest (PTake e).
Proof.
  intros E Hs Hq Hd ->. pose proof (pos_plain u (run_chars _ _ _ E)) as P. unfold fitting, first_err. destruct rest as [| c r]; [now rewrite P |]. right.
  assert (Hn : ~ after q). { intros Hq'. specialize (Hq Hq'). cbn [closers] in Hd. destruct (N.eqb_spec c (chr ")")) as [-> | _]; [| lia]. specialize (Hs _ _ eq_refl). destruct d as [| d]; [lia |]. destruct Hq' as [-> | ->]; discriminate Hs. }
  split; [intros X; apply sentence_run in X as (m & E' & Hm); rewrite E in E'; injection E' as -> _; auto |]. eexists. rewrite P. split; [reflexivity |]. intros x. rewrite (step_viable _ _ _ _ E). now apply expected_iff.
Qed.
Lemma unclosed_missing u rest : Forall no_break u -> PTake (missing u rest) = unclosed u rest.
Proof. intros H. unfold missing, unclosed. destruct rest; now rewrite (pos_plain u H). Qed.

(** C99.  An error splits the text where it first goes wrong: what comes before
    can still be continued to an expression, what comes next (a character, or
    the end of the text) cannot follow it.  If the parentheses left open there
    are all closed by the very next characters (in particular if none is open),
    the error is the fitting one: its place is that place, it tells apart text
    after a whole expression, the end of the text and a wrong character, and
    lists exactly the characters, other than a space, that could have stood
    there.  Otherwise it is about the first missing closing parenthesis after
    those that do stand there. *)
Theorem C99_errors : forall k n s e, parse_expr k n s = Err e ->
  exists u rest, s = u ++ rest /\ viable u /\ ~ sentence s /\ (forall c r, rest = c :: r -> ~ viable (u ++ [c])) /\
    (left_open u <= closers rest -> fitting u rest e) /\
    (closers rest < left_open u -> e = unclosed (u ++ repeat (chr ")") (closers rest)) (skipn (closers rest) rest)).
Proof.
  intros k n s e. unfold parse_expr, take_expr. destruct (spaces_at _ _ _ (at_cursor_new s)) as (b & r & -> & Hb & Hb1 & A). cbn [app] in A.
  pose proof (expr_ok k _ n (product_ok k _ n (term_ok k n)) 0 _ _ _ A Hb1) as P. destruct (take_expr_of _ _ _ _) as [o st]. unfold outcome in P. cbn [fst snd] in P.
  assert (Rb : run (WantTerm, 0) b = Some (WantTerm, 0)) by (apply run_blank_want; [exact Hb | intros [X | X]; discriminate X]).
  destruct o as [z | e' | |]; try discriminate.
  - destruct P as (w & r' & m & -> & P1 & P2 & P3 & P4). destruct (peek_as _ _ _ P4) as (st1 & -> & A1). destruct r' as [| c r']; cbn [hd_error]; [discriminate |]. intros [= <-].
    assert (E : run (WantTerm, 0) (b ++ w) = Some (m, 0)) by now rewrite run_app, Rb.
    assert (Es : step (m, 0) c = None).
    { destruct (P3 c eq_refl) as (H1 & H2 & H3). apply N.eqb_neq in H1. assert (Ea : after_step 0 c = None) by (unfold after_step; rewrite H1, H3; now destruct (N.eqb c (chr ")"))).
      destruct P2 as [-> | ->]; cbn [step]; [rewrite (proj2 (is_dig_not c) (H2 eq_refl)) |]; exact Ea. }
    exists (b ++ w), (c :: r'). split; [now rewrite app_assoc |]. split; [apply viable_run; eauto |]. split; [| split; [| split]].
    + intros X. apply sentence_run in X as (m' & X & _). rewrite app_assoc, run_app, E in X. cbn [run] in X. rewrite Es in X. discriminate X.
    + intros x y [= <- <-] X. apply (step_viable _ _ _ _ E) in X. now apply X.
    + intros _. left. split; [apply sentence_run; eauto |]. unfold iw_pos. rewrite (proj2 A1). rewrite (pos_plain _ (run_chars _ _ _ E)). reflexivity.
    + intros X. exfalso. pose proof (run_count _ _ _ _ _ E). unfold left_open in X. lia.
  - intros [= <-]. destruct P as (w & rest & q & d & -> & P1 & P2 & P3 & P4 & P5). cbn [Nat.add] in P1, P2.
    assert (E : run (WantTerm, 0) (b ++ w) = Some (q, d)) by now rewrite run_app, Rb.
    assert (Ld : left_open (b ++ w) = d) by (pose proof (run_count _ _ _ _ _ E); unfold left_open; lia).
    exists (b ++ w), rest. split; [now rewrite app_assoc |]. split; [apply viable_run; eauto |]. split; [| split; [| split]].
    + intros X. apply sentence_run in X as (m' & X & Hm'). rewrite app_assoc, run_app, E in X. destruct rest as [| c r]; cbn [run] in X; [injection X as -> ->; specialize (P3 Hm'); lia |]. rewrite (P2 c r eq_refl) in X. discriminate X.
    + intros c r0 -> X. apply (step_viable _ _ _ _ E) in X. apply X. eauto.
    + rewrite Ld. intros Hd. destruct (P4 Hd) as [-> _]. now apply (first_fitting _ q d).
    + rewrite Ld. intros Hd. destruct (P5 Hd) as [-> _]. rewrite <- unclosed_missing; [now rewrite <- app_assoc |]. apply Forall_app. split; [apply (run_chars _ _ _ E) |]. clear. induction (closers rest) as [| n IH]; cbn [repeat]; constructor; [cbv; repeat split; congruence | exact IH].
Qed.

(** There is only one such place. *)
Theorem C99_place : forall u rest u' rest', u ++ rest = u' ++ rest' -> viable u -> viable u' ->
  (forall c r, rest = c :: r -> ~ viable (u ++ [c])) -> (forall c r, rest' = c :: r -> ~ viable (u' ++ [c])) -> u = u' /\ rest = rest'.
Proof.
  assert (Pre : forall u v, viable (u ++ v) -> viable u). { intros u v (t & H). exists (v ++ t). now rewrite app_assoc. }
  assert (K : forall u x rest', viable (u ++ x) -> (forall c r, x ++ rest' = c :: r -> ~ viable (u ++ [c])) -> x = []).
  { intros u [| c x] rest' H Hn; [reflexivity |]. exfalso. apply (Hn c (x ++ rest') eq_refl). apply (Pre _ x). now rewrite <- app_assoc. }
  intros u rest u' rest' E Hu Hu' H H'. apply app_eq_app in E as (x & [[-> ->] | [-> ->]]).
  - rewrite (K u' x rest Hu H'). now rewrite app_nil_r.
  - rewrite (K u x rest' Hu' H). now rewrite app_nil_r.
Qed.

(** So the place of an error is the first wrong one, unless closing
    parentheses, too few of them, follow there. *)
Corollary C99_earliest : forall k n s e u rest, parse_expr k n s = Err e -> s = u ++ rest -> viable u -> (forall c r, rest = c :: r -> ~ viable (u ++ [c])) ->
  (left_open u = 0 \/ closers rest = 0 \/ left_open u <= closers rest) ->
  match e with PTake e' => terr_pos e' | InputContinues p => p end = LC 1 (length u).
Proof.
  intros k n s e u rest E -> Hu Hn Hc. destruct (C99_errors k n _ e E) as (u' & rest' & Es & Hu' & _ & Hn' & F1 & F2). destruct (C99_place _ _ _ _ Es Hu Hu' Hn Hn') as [<- <-].
  destruct (Compare_dec.le_lt_dec (left_open u) (closers rest)) as [Hd | Hd].
  - specialize (F1 Hd). unfold fitting in F1. destruct rest as [| c r]; [now subst e |]. destruct F1 as [[_ ->] | [_ (l & -> & _)]]; reflexivity.
  - rewrite (F2 Hd). assert (C0 : closers rest = 0) by lia. rewrite C0. cbn [repeat skipn]. rewrite app_nil_r. now destruct rest.
Qed.

(** "(()" is wrong at its third character; the error is about its end. *)
Theorem C99_late_refuted : exists s u rest e, parse_expr true 20 s = Err e /\ s = u ++ rest /\ viable u /\ (forall c r, rest = c :: r -> ~ viable (u ++ [c])) /\
  length u = 2 /\ match e with PTake e' => terr_pos e' | InputContinues p => p end = LC 1 3.
Proof.
  exists (lit "(()"), (lit "(("), (lit ")"). eexists. split; [vm_compute; reflexivity |]. split; [reflexivity |]. split; [apply viable_run; eexists; reflexivity |]. split; [| split; reflexivity].
  intros c r [= <- <-] X. apply viable_run in X as [q X]. discriminate X.
Qed.
(** "1 + * 2": the expected characters. *)
Example C99_ex : exists l, parse_expr true 20 (lit "1 + * 2") = Err (PTake (BadBranch (LC 1 4) (chr "*") l)) /\ forall d, In d l <-> d <> 32%N /\ viable (lit "1 + " ++ [d]).
Proof.
  destruct (C99_errors true 20 (lit "1 + * 2") _ eq_refl) as (u & rest & Es & Hu & _ & Hn & F1 & _).
  destruct (C99_place (lit "1 + ") (lit "* 2") u rest Es) as [<- <-]; [apply viable_run; eexists; reflexivity | exact Hu | | exact Hn |].
  { intros c r [= <- <-] X. apply viable_run in X as [q X]. discriminate X. }
  destruct (F1 (le_n 0)) as [[_ X] | [_ (l & X & Hl)]]; [discriminate X |]. exists l. split; [| exact Hl]. injection X as <-. reflexivity.
Qed.
(** "((1)": the missing parenthesis; "1)": text after an expression. *)
Example C99_ex_unclosed : parse_expr true 20 (lit "((1)") = Err (unclosed (lit "((1)") []) /\ parse_expr true 20 (lit "(2 x)") = Err (unclosed (lit "(2 ") (lit "x)")) /\ parse_expr true 20 (lit "1)") = Err (InputContinues (LC 1 1)).
Proof. repeat split. Qed.
Print Assumptions C99_errors. Print Assumptions C99_place. Print Assumptions C99_earliest. Print Assumptions C99_late_refuted.
