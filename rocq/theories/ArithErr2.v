(** * ArithErr2: the parser follows the automaton, and where it gives up. *)
From Coq Require Import String ZArith.
From Verif Require Export ArithErr.
From Coq Require Import List Lia.
Import ListNotations.
Open Scope list_scope.
Local Opaque Z.pow.

Definition first_err (u : rstr) (q : mode) (r : rstr) : take_error :=
  match r with
  | [] => EndOfStream (spec_pos u None)
  | c :: _ => BadBranch (spec_pos u (Some c)) c (match q with WantNumber => digit_chars | _ => lit "-(0123456789" end)
  end.
Definition missing (u r : rstr) : take_error :=
  match r with [] => EndOfStream (spec_pos u None) | c :: _ => BadString (spec_pos u (Some c)) [c] (lit ")") end.
Notation close := (repeat (chr ")")).
Definition errs (D : nat) (q0 : mode) (u r : rstr) (e : take_error) (st' : iw) : Prop :=
  exists w r' q d, r = w ++ r' /\ run (q0, D) w = Some (q, D + d) /\ (forall c r'', r' = c :: r'' -> step (q, D + d) c = None) /\ (after q -> 0 < d) /\
    (d <= closers r' -> e = first_err (u ++ w) q r' /\ at_cursor (u ++ w ++ close d) (skipn d r') st') /\
    (closers r' < d -> e = missing (u ++ w ++ close (closers r')) (skipn (closers r') r') /\ at_cursor (u ++ w ++ close (closers r')) (skipn (closers r') r') st').
Definition calm (stops : char -> Prop) (m : mode) (r : rstr) : Prop := forall c, hd_error r = Some c -> c <> 32%N /\ (m = InNumber -> ~ is_digit c) /\ stops c.
Definition oks (D : nat) (q0 : mode) (stops : char -> Prop) (u r : rstr) (st' : iw) : Prop :=
  exists w r' m, r = w ++ r' /\ run (q0, D) w = Some (m, D) /\ after m /\ calm stops m r' /\ at_cursor (u ++ w) r' st'.
Definition outcome (D : nat) (q0 : mode) (stops : char -> Prop) (u r : rstr) (x : res Z take_error * iw) : Prop :=
  match fst x with Ok _ => oks D q0 stops u r (snd x) | Err e => errs D q0 u r e (snd x) | _ => True end.

Lemma errs_prefix D q0 q1 u w0 r e st : run (q0, D) w0 = Some (q1, D) -> errs D q1 (u ++ w0) r e st -> errs D q0 u (w0 ++ r) e st.
Proof.
  intros E (w & r' & q & d & -> & H1 & H2 & H3 & H4 & H5). exists (w0 ++ w), r', q, d. split; [now rewrite app_assoc |]. split; [now rewrite run_app, E |]. rewrite <- !app_assoc in *. auto.
Qed.
Lemma outcome_prefix D q0 q1 stops u w0 r x : run (q0, D) w0 = Some (q1, D) -> outcome D q1 stops (u ++ w0) r x -> outcome D q0 stops u (w0 ++ r) x.
Proof.
  intros E. unfold outcome. destruct (fst x) as [z | e | |]; auto; [| now apply errs_prefix].
  intros (w & r' & m & -> & H1 & H2 & H3 & H4). exists (w0 ++ w), r', m. split; [now rewrite app_assoc |]. split; [now rewrite run_app, E |]. rewrite <- !app_assoc in *. auto.
Qed.
Lemma here D q u r st : q = WantTerm \/ q = WantNumber -> (forall c r', r = c :: r' -> step (q, D) c = None) -> at_cursor u r st -> errs D q u r (first_err u q r) st.
Proof.
  intros Hq Hs A. exists [], r, q, 0. split; [reflexivity |]. rewrite PeanoNat.Nat.add_0_r. split; [reflexivity |]. split; [exact Hs |]. split; [intros [X | X]; destruct Hq; congruence |].
  cbn [repeat skipn app]. rewrite app_nil_r. split; [auto | intros X; lia].
Qed.

(** ** Numbers *)
Lemma take_number_outcome k n : forall out D q u r st, at_cursor u r st ->
  match out with None => q = WantNumber /\ hd_error r <> Some 32%N \/ q = WantTerm /\ exists c, hd_error r = Some c /\ is_digit c | Some _ => q = InNumber end ->
  match fst (take_number k n out st) with
  | Ok _ => exists w r', r = w ++ r' /\ run (q, D) w = Some (InNumber, D) /\ (forall c, hd_error r' = Some c -> ~ is_digit c) /\ at_cursor (u ++ w) r' (snd (take_number k n out st))
  | Err e => errs D q u r e (snd (take_number k n out st))
  | _ => True
  end.
Proof.
  induction n as [| n IH]; intros out D q u r st Ha Hq; [exact Logic.I |]. cbn [take_number]. destruct (peek_as _ _ _ Ha) as (st1 & -> & A1).
  assert (Stop : (forall c, hd_error r = Some c -> ~ is_digit c) -> forall e, e = first_err u WantNumber r ->
    match fst (match out with Some v => (Ok v, st1) | None => (Err e, st1) end) with
    | Ok _ => exists w r', r = w ++ r' /\ run (q, D) w = Some (InNumber, D) /\ (forall c, hd_error r' = Some c -> ~ is_digit c) /\ at_cursor (u ++ w) r' (snd (match out with Some v => (@Ok Z _ v, st1) | None => (Err e, st1) end))
    | Err e' => errs D q u r e' (snd (match out with Some v => (@Ok Z _ v, st1) | None => (Err e, st1) end))
    | _ => True
    end).
  { intros Hd e ->. destruct out as [v |]; cbn [fst snd].
    - subst q. exists [], r. rewrite app_nil_r. auto.
    - destruct Hq as [[-> Hs] | [-> (c & Hc & Hc')]]; [| exfalso; now apply (Hd c)]. apply here; [now right | | exact A1]. intros c r' ->. cbn [step]. rewrite (proj2 (N.eqb_neq c 32)) by (intros ->; now apply Hs).
      now rewrite (proj2 (is_dig_not c) (Hd c eq_refl)). }
  destruct r as [| c r]; cbn [hd_error].
  - apply Stop; [discriminate |]. unfold first_err. f_equal. exact (proj2 A1).
  - destruct (digit_of c) as [x |] eqn:Ed.
    + apply digit_of_some in Ed as [Hc ->]. destruct (consume_char _ _ _ _ A1) as [E1 A2]. rewrite (then_ok _ _ _ E1). destruct (push_digit k out (digit_value c)) as [y |]; cbn [or_panic]; [| exact Logic.I].
      unfold then_ at 1 2 3. cbn [fst snd]. specialize (IH (Some y) D InNumber _ _ _ A2 eq_refl). 
      assert (Rc : run (q, D) [c] = Some (InNumber, D)).
      { destruct (digit_facts c Hc) as (E3 & E4 & _). cbn [run]. apply is_dig_iff in Hc. destruct out as [v |]; [subst q | destruct Hq as [[-> _] | [-> _]]]; cbn [step]; rewrite ?E3, ?E4, Hc; reflexivity. }
      destruct (fst (take_number k n (Some y) _)) as [z | e | |]; auto.
      * destruct IH as (w & r' & -> & H1 & H2 & H3). exists (c :: w), r'. split; [reflexivity |]. change (c :: w) with ([c] ++ w). rewrite run_app, Rc. rewrite <- app_assoc in H3. auto.
      * now apply (errs_prefix D q InNumber u [c]).
    + apply digit_of_none in Ed. apply Stop; [intros d [= <-]; exact Ed |]. unfold first_err. f_equal. exact (proj2 A1).
Qed.

(** ** Operands and loops *)
Definition operand_ok (operand : iw -> res Z take_error * iw) (stops : char -> Prop) : Prop :=
  forall D u r st, at_cursor u r st -> hd_error r <> Some 32%N -> outcome D WantTerm stops u r (operand st).
Definition loop_ok (loop : Z -> iw -> res Z take_error * iw) (stops stops' : char -> Prop) : Prop :=
  forall D m u r st z, after m -> at_cursor u r st -> calm stops m r -> outcome D m stops' u r (loop z st).
Lemma then_outcome D q0 stops stops' u r x loop : outcome D q0 stops u r x -> loop_ok loop stops stops' -> outcome D q0 stops' u r (then_ x loop).
Proof.
  intros Hx Hl. unfold then_. unfold outcome in Hx. destruct (fst x) as [z | e | |]; try exact Logic.I; [| exact Hx].
  destruct Hx as (w & r' & m & -> & H1 & H2 & H3 & H4). apply (outcome_prefix D q0 m); [exact H1 |]. now apply Hl.
Qed.
Lemma operand_outcome operand stops stops' c f loop D m u r st z : operand_ok operand stops -> loop_ok loop stops stops' -> is_oper c = true -> after m -> at_cursor u (c :: r) st ->
  outcome D m stops' u (c :: r) (operand_run operand c f z loop st).
Proof.
  intros Ho Hl Hc Hm A. unfold operand_run. destruct (consume_char _ _ _ _ A) as [E1 A1]. rewrite (then_ok _ _ _ E1). destruct (spaces_at _ _ _ A1) as (s & r1 & -> & Hs & Hs1 & A2).
  apply (outcome_prefix D m WantTerm _ u (c :: s)); [cbn [run]; rewrite (run_op m D c Hm Hc); apply run_blank_want; [exact Hs | intros [X | X]; discriminate X] |].
  rewrite <- app_assoc in A2. apply (then_outcome D WantTerm stops stops'); [apply Ho; [exact A2 | exact Hs1] |]. intros D' m' u' r' st' z' Hm' A' Hc'. destruct (f z z') as [y |]; cbn [or_panic]; [| exact Logic.I]. unfold then_. cbn [fst snd]. now apply Hl.
Qed.
Definition no_mul (c : char) : Prop := c <> chr "*" /\ c <> chr "/".
Definition no_op (c : char) : Prop := is_oper c = false.
Lemma calm_here stops m u r st1 D (z : Z) : after m -> at_cursor u r st1 -> calm stops m r -> outcome D m stops u r (Ok z, st1).
Proof. intros Hm A Hc. exists [], r, m. rewrite app_nil_r. auto. Qed.
Lemma product_loop_ok k operand n : operand_ok operand (fun _ => True) -> loop_ok (product_loop k operand n) (fun _ => True) no_mul.
Proof.
  intros Ho. induction n as [| n IH]; intros D m u r st z Hm A Hc; [exact Logic.I |]. cbn [product_loop]. destruct (peek_as _ _ _ A) as (st1 & -> & A1).
  destruct r as [| c r]; cbn [hd_error]; [apply calm_here; auto; intros x [=] |].
  destruct (N.eqb_spec c (chr "*")) as [-> | H1]; [apply (operand_outcome operand (fun _ => True) no_mul (chr "*") (i64_mul k)); auto |].
  destruct (N.eqb_spec c (chr "/")) as [-> | H2]; [apply (operand_outcome operand (fun _ => True) no_mul (chr "/") i64_div); auto |].
  apply calm_here; auto. intros x [= <-]. destruct (Hc c eq_refl) as (Hc1 & Hc2 & _). repeat split; auto.
Qed.
Lemma product_ok k operand n : operand_ok operand (fun _ => True) -> operand_ok (take_product k operand n) no_mul.
Proof. intros Ho D u r st A Hs. unfold take_product. apply (then_outcome D WantTerm (fun _ => True)); [now apply Ho | now apply product_loop_ok]. Qed.
Lemma expr_loop_ok k operand n : operand_ok operand no_mul -> loop_ok (expr_loop k operand n) no_mul no_op.
Proof.
  intros Ho. induction n as [| n IH]; intros D m u r st z Hm A Hc; [exact Logic.I |]. cbn [expr_loop]. destruct (peek_as _ _ _ A) as (st1 & -> & A1).
  destruct r as [| c r]; cbn [hd_error]; [apply calm_here; auto; intros x [=] |].
  destruct (N.eqb_spec c (chr "+")) as [-> | H1]; [apply (operand_outcome operand no_mul no_op (chr "+") (i64_add k)); auto |].
  destruct (N.eqb_spec c (chr "-")) as [-> | H2]; [apply (operand_outcome operand no_mul no_op (chr "-") (i64_sub k)); auto |].
  apply calm_here; auto. intros x [= <-]. destruct (Hc c eq_refl) as (Hc1 & Hc2 & Hc3 & Hc4). split; [exact Hc1 |]. split; [exact Hc2 |]. unfold no_op, is_oper. rewrite !orb_false_iff, !N.eqb_neq. auto.
Qed.
Lemma expr_ok k operand n : operand_ok operand no_mul -> operand_ok (take_expr_of k operand n) no_op.
Proof. intros Ho D u r st A Hs. unfold take_expr_of. apply (then_outcome D WantTerm no_mul); [now apply Ho | now apply expr_loop_ok]. Qed.

(** ** The closing parenthesis *)
Lemma consume_close u r st : at_cursor u r st ->
  match r with
  | c :: r' => if N.eqb c (chr ")") then fst (consume_str (lit ")") st) = Ok tt /\ at_cursor (u ++ [chr ")"]) r' (snd (consume_str (lit ")") st))
               else fst (consume_str (lit ")") st) = Err (missing u r) /\ at_cursor u r (snd (consume_str (lit ")") st))
  | [] => fst (consume_str (lit ")") st) = Err (missing u r) /\ at_cursor u r (snd (consume_str (lit ")") st))
  end.
Proof.
  intros A. change (lit ")") with [chr ")"]. destruct r as [| c r].
  - unfold consume_str. cbn [consume_loop]. destruct (peek_as _ _ _ A) as (st1 & -> & A1). cbn [fst snd hd_error missing]. split; [f_equal; f_equal; exact (proj2 A1) | exact A1].
  - destruct (N.eqb_spec c (chr ")")) as [-> | Hn]; [now apply consume_char |]. unfold consume_str. cbn [consume_loop]. destruct (peek_as _ _ _ A) as (st1 & -> & A1). cbn [hd_error]. rewrite (proj2 (N.eqb_neq _ _) Hn). cbn [byte_prefix fst snd missing app].
    split; [| exact A1]. change [chr ")"] with (lit ")"). unfold iw_pos. rewrite (proj2 A1). reflexivity.
Qed.
Lemma closers_skip r n : n <= closers r -> match skipn n r with c :: _ => N.eqb c (chr ")") = Nat.ltb n (closers r) | [] => n = closers r end.
Proof.
  revert n. induction r as [| c r IH]; intros n; cbn [closers]; [intros H; assert (n = 0) by lia; subst; reflexivity |]. destruct n as [| n].
  - intros _. cbn [skipn]. destruct (N.eqb c (chr ")")); reflexivity.
  - destruct (N.eqb c (chr ")")); [| intros H; lia]. intros H. cbn [skipn]. specialize (IH n ltac:(lia)). destruct (skipn n r); [lia |]. rewrite IH. reflexivity.
Qed.
Lemma skipn_S (A : Type) n : forall (l : list A) x l', skipn n l = x :: l' -> skipn (S n) l = l'.
Proof. induction n as [| n IH]; intros [| y l] x l' E; try discriminate E; cbn in *; [congruence | now apply (IH l x)]. Qed.
Lemma repeat_snoc (A : Type) (x : A) n : repeat x (S n) = repeat x n ++ [x].
Proof. induction n as [| n IH]; [reflexivity |]. cbn [repeat app] in *. now rewrite <- IH. Qed.
Lemma paren_err D u s r e st3 (Hs : blank s) : errs (S D) WantTerm (u ++ chr "(" :: s) r e st3 ->
  exists e', fst (then_ (consume_str (lit ")") st3) (fun _ st4 => (@Err Z _ e, st4))) = Err e' /\ errs D WantTerm u (chr "(" :: s ++ r) e' (snd (then_ (consume_str (lit ")") st3) (fun _ st4 => (@Err Z _ e, st4)))).
Proof.
  intros (w & r' & q & d & -> & H1 & H2 & H3 & H4 & H5).
  assert (Hr : run (WantTerm, D) (chr "(" :: s ++ w) = Some (q, D + S d)).
  { cbn [run]. change (step (WantTerm, D) (chr "(")) with (Some (WantTerm, S D)). cbn iota. rewrite run_app, run_blank_want; [| exact Hs | intros [X | X]; discriminate X]. now replace (D + S d) with (S D + d) by lia. }
  assert (Mk : forall e' st', (S d <= closers r' -> e' = first_err (u ++ (chr "(" :: s ++ w)) q r' /\ at_cursor (u ++ (chr "(" :: s ++ w) ++ close (S d)) (skipn (S d) r') st') ->
    (closers r' < S d -> e' = missing (u ++ (chr "(" :: s ++ w) ++ close (closers r')) (skipn (closers r') r') /\ at_cursor (u ++ (chr "(" :: s ++ w) ++ close (closers r')) (skipn (closers r') r') st') -> errs D WantTerm u (chr "(" :: s ++ w ++ r') e' st').
  { intros e' st' K1 K2. exists (chr "(" :: s ++ w), r', q, (S d). split; [cbn; now rewrite <- app_assoc |]. split; [exact Hr |]. split; [now replace (D + S d) with (S D + d) by lia |]. split; [intros _; lia |]. auto. }
  assert (As : forall x, (u ++ chr "(" :: s) ++ w ++ x = u ++ (chr "(" :: s ++ w) ++ x) by (intros x; rewrite <- !app_assoc; cbn; now rewrite <- app_assoc).
  assert (As' : (u ++ chr "(" :: s) ++ w = u ++ (chr "(" :: s ++ w)) by (rewrite <- !app_assoc; reflexivity).
  rewrite !As in *. destruct (Compare_dec.le_lt_dec d (closers r')) as [Hd | Hd].
  - destruct (H4 Hd) as [-> A]. pose proof (consume_close _ _ _ A) as P. pose proof (closers_skip r' d Hd) as Q. destruct (skipn d r') as [| c r2] eqn:Ek.
    + destruct P as [P1 P2]. unfold then_. rewrite P1. cbn [fst snd]. eexists. split; [reflexivity |]. apply Mk; [intros; lia |]. intros _. rewrite <- Q, Ek. auto.
    + destruct (PeanoNat.Nat.ltb_spec d (closers r')) as [Hlt | Hge]; rewrite Q in P; destruct P as [P1 P2]; unfold then_; rewrite P1; cbn [fst snd].
      * eexists. split; [reflexivity |]. apply Mk; [intros _ | intros; lia]. rewrite As'. split; [reflexivity |]. rewrite (skipn_S _ _ _ _ _ Ek), repeat_snoc. rewrite !app_assoc in *. exact P2.
      * eexists. split; [reflexivity |]. apply Mk; [intros; lia |]. intros _. replace (closers r') with d by lia. rewrite Ek. auto.
  - destruct (H5 Hd) as [-> A]. pose proof (consume_close _ _ _ A) as P. pose proof (closers_skip r' _ (le_n _)) as Q. rewrite PeanoNat.Nat.ltb_irrefl in Q.
    assert (P' : fst (consume_str (lit ")") st3) = Err (missing (u ++ (chr "(" :: s ++ w) ++ close (closers r')) (skipn (closers r') r')) /\ at_cursor (u ++ (chr "(" :: s ++ w) ++ close (closers r')) (skipn (closers r') r') (snd (consume_str (lit ")") st3))).
    { destruct (skipn (closers r') r') as [| c r2]; [exact P | rewrite Q in P; exact P]. }
    destruct P' as [P1 P2]. unfold then_. rewrite P1. cbn [fst snd]. eexists. split; [reflexivity |]. apply Mk; [intros; lia |]. auto.
Qed.

(** ** Operands *)
Lemma spaces_outcome D q0 u r x : match fst x with Ok _ => exists w r' m, r = w ++ r' /\ run (q0, D) w = Some (m, D) /\ after m /\ (m = InNumber -> forall c, hd_error r' = Some c -> ~ is_digit c) /\ at_cursor (u ++ w) r' (snd x) | Err e => errs D q0 u r e (snd x) | _ => True end ->
  outcome D q0 (fun _ => True) u r (then_ x (fun v st2 => (Ok v, spaces st2))).
Proof.
  intros H. unfold then_, outcome. destruct (fst x) as [z | e | |]; cbn [fst snd]; auto. destruct H as (w & r' & m & -> & H1 & H2 & H3 & A). destruct (spaces_at _ _ _ A) as (s & r1 & -> & Hs & Hs1 & A1).
  destruct (run_blank m D s Hs) as (m' & E & K). exists (w ++ s), r1, m'. split; [now rewrite app_assoc |]. split; [now rewrite run_app, H1 |]. split; [destruct K as [[-> _] | [_ ->]]; [exact H2 | now right] |]. split; [| now rewrite app_assoc].
  intros c Hc. split; [congruence |]. split; [| exact Logic.I]. intros ->. destruct K as [[<- K] | [_ K]]; [| discriminate K]. destruct (K H2) as [X | ->]; [discriminate X |]. now apply H3.
Qed.
Lemma term_ok k n : operand_ok (take_term k n) (fun _ => True).
Proof.
  induction n as [| n IH]; intros D u r st A Hs; [exact Logic.I |]. cbn [take_term]. destruct (peek_as _ _ _ A) as (st1 & -> & A1). apply spaces_outcome.
  destruct r as [| c r]; cbn [hd_error].
  { cbn [fst snd]. replace (EndOfStream (iw_pos st1)) with (first_err u WantTerm []) by (unfold first_err; f_equal; symmetry; exact (proj2 A1)). apply here; [now left | discriminate | exact A1]. }
  destruct (N.eqb_spec c (chr "-")) as [-> | H1].
  { destruct (consume_char _ _ _ _ A1) as [E1 A2]. change (lit "-") with [chr "-"]. rewrite (then_ok _ _ _ E1). destruct (spaces_at _ _ _ A2) as (s & r1 & -> & Hs0 & Hs1 & A3).
    pose proof (take_number_outcome k n None D WantNumber _ _ _ A3 (or_introl (conj eq_refl Hs1))) as P.
    assert (Rn : run (WantTerm, D) (chr "-" :: s) = Some (WantNumber, D)) by (cbn [run]; change (step (WantTerm, D) (chr "-")) with (Some (WantNumber, D)); cbn iota; apply run_blank_want; [exact Hs0 | intros [X | X]; discriminate X]).
    rewrite <- app_assoc in P. unfold then_. destruct (fst (take_number k n None _)) as [z | e | |]; try exact Logic.I.
    - destruct (i64_neg k z) as [y |]; cbn [or_panic fst snd]; [| exact Logic.I]. destruct P as (w & r' & -> & P1 & P2 & P3). exists ((chr "-" :: s) ++ w), r', InNumber. split; [cbn; now rewrite <- app_assoc |]. split; [now rewrite run_app, Rn |]. split; [now left |]. split; [auto |]. rewrite <- app_assoc in P3. exact P3.
    - cbn [fst snd]. now apply (errs_prefix D WantTerm WantNumber u (chr "-" :: s)). }
  destruct (digit_of c) as [x |] eqn:Ed.
  { apply digit_of_some in Ed as [Hc _]. pose proof (take_number_outcome k n None D WantTerm _ _ _ A1 (or_intror (conj eq_refl (ex_intro _ c (conj eq_refl Hc))))) as P.
    destruct (fst (take_number k n None st1)) as [z | e | |]; try exact Logic.I; [| exact P]. destruct P as (w & r' & E & P1 & P2 & P3). exists w, r', InNumber. split; [exact E |]. split; [exact P1 |]. split; [now left |]. auto. }
  destruct (N.eqb_spec c (chr "(")) as [-> | H2].
  2: { cbn [fst snd]. replace (BadBranch (iw_pos st1) c (lit "-(0123456789")) with (first_err u WantTerm (c :: r)) by (unfold first_err; f_equal; symmetry; exact (proj2 A1)). apply here; [now left | | exact A1].
    intros x r' [= <- <-]. cbn [step]. apply digit_of_none, is_dig_not in Ed. rewrite (proj2 (N.eqb_neq c 32)) by (intros ->; now apply Hs). now rewrite (proj2 (N.eqb_neq _ _) H1), Ed, (proj2 (N.eqb_neq _ _) H2). }
  destruct (consume_char (chr "(") _ _ _ A1) as [E1 A2]. change (lit "(") with [chr "("]. rewrite (then_ok _ _ _ E1). destruct (spaces_at _ _ _ A2) as (s & r1 & -> & Hs0 & Hs1 & A3).
  pose proof (expr_ok k _ n (product_ok k _ n IH) (S D) _ _ _ A3 Hs1) as P. set (x := take_expr_of _ _ _ _) in *. clearbody x. destruct x as [o st3]. unfold outcome in P. cbn [fst snd] in P. rewrite <- app_assoc in P. cbn [app] in P.
  destruct o as [z | e | |]; try exact Logic.I.
  - destruct P as (w & r' & m & -> & P1 & P2 & P3 & P4).
    assert (Rp : run (WantTerm, D) (chr "(" :: s ++ w) = Some (m, D + 1)).
    { cbn [run]. change (step (WantTerm, D) (chr "(")) with (Some (WantTerm, S D)). cbn iota. rewrite run_app, run_blank_want; [| exact Hs0 | intros [X | X]; discriminate X]. now rewrite PeanoNat.Nat.add_1_r. }
    assert (As : (u ++ chr "(" :: s) ++ w = u ++ (chr "(" :: s ++ w)) by (rewrite <- !app_assoc; reflexivity). rewrite As in P4.
    pose proof (consume_close _ _ _ P4) as Q.
    assert (Bad : closers r' = 0 -> (forall c r'', r' = c :: r'' -> c <> chr ")") -> fst (consume_str (lit ")") st3) = Err (missing (u ++ (chr "(" :: s ++ w)) r') /\ at_cursor (u ++ (chr "(" :: s ++ w)) r' (snd (consume_str (lit ")") st3)) ->
      match fst (then_ (consume_str (lit ")") st3) (fun _ st4 => (@Ok Z take_error z, st4))) with Ok _ => exists w0 r'0 m0, chr "(" :: s ++ w ++ r' = w0 ++ r'0 /\ run (WantTerm, D) w0 = Some (m0, D) /\ after m0 /\ (m0 = InNumber -> forall c, hd_error r'0 = Some c -> ~ is_digit c) /\ at_cursor (u ++ w0) r'0 (snd (then_ (consume_str (lit ")") st3) (fun _ st4 => (@Ok Z take_error z, st4)))) | Err e => errs D WantTerm u (chr "(" :: s ++ w ++ r') e (snd (then_ (consume_str (lit ")") st3) (fun _ st4 => (@Ok Z take_error z, st4)))) | _ => True end).
    { intros C0 Hn [Q1 Q2]. unfold then_. rewrite Q1. cbn [fst snd]. exists (chr "(" :: s ++ w), r', m, 1. split; [cbn; now rewrite <- app_assoc |]. split; [exact Rp |]. split; [| split; [intros _; lia |]; rewrite C0; cbn [repeat skipn]; rewrite app_nil_r; split; [intros; lia | auto]].
      intros c r'' ->. destruct (P3 c eq_refl) as (Hc1 & Hc2 & Hc3). specialize (Hn c r'' eq_refl). apply N.eqb_neq in Hc1, Hn. assert (E : after_step (D + 1) c = None) by (unfold after_step; now rewrite Hc1, Hc3, Hn).
      destruct P2 as [-> | ->]; cbn [step]; [rewrite (proj2 (is_dig_not c) (Hc2 eq_refl)) |]; exact E. }
    destruct r' as [| c r']; [apply Bad; auto; intros x y [=] |]. destruct (N.eqb_spec c (chr ")")) as [-> | Hn].
    + destruct Q as [Q1 Q2]. rewrite (then_ok _ _ _ Q1). cbn [fst snd]. exists (chr "(" :: s ++ w ++ [chr ")"]), r', AfterTerm. split; [cbn; now rewrite <- !app_assoc |]. split; [| split; [now right | split; [discriminate |]]].
      * change (chr "(" :: s ++ w ++ [chr ")"]) with ((chr "(" :: s) ++ w ++ [chr ")"]). rewrite app_assoc. change ((chr "(" :: s) ++ w) with (chr "(" :: s ++ w). rewrite run_app, Rp. cbn [run]. rewrite PeanoNat.Nat.add_1_r. now destruct P2 as [-> | ->].
      * rewrite <- !app_assoc in Q2. cbn [app] in Q2. rewrite <- app_assoc in Q2. exact Q2.
    + apply Bad; [cbn [closers]; now rewrite (proj2 (N.eqb_neq _ _) Hn) | intros c' r'' [= <- <-]; exact Hn | exact Q].
  - destruct (paren_err D u s r1 e st3 Hs0 P) as (e' & K1 & K2). change ([chr ")"]) with (lit ")"). rewrite K1. exact K2.
Qed.
