(** * ReportFacts: messages of generated parsers can be read back. *)
From Coq Require Import String.
From Verif Require Export SpecReport Messages MessageFacts.
From Coq Require Import List NArith Lia.
Open Scope list_scope.

(** ** The standard library's writing of characters *)
Definition hex_value (c : char) : N := if (c <? 58)%N then (c - 48)%N else (c - 87)%N.
Definition unhex (l : rstr) (a : N) : N := fold_left (fun a c => 16 * a + hex_value c)%N l a.
Lemma hex_value_digit n : (n < 16)%N -> hex_value (hex_digit n) = n.
Proof. intros H. unfold hex_value, hex_digit. destruct (N.ltb_spec n 10); [rewrite (proj2 (N.ltb_lt (48 + n) 58)) by lia; lia | rewrite (proj2 (N.ltb_ge (87 + n) 58)) by lia; lia]. Qed.
Lemma unhex_go k : forall n acc, (n < 16 ^ N.of_nat k)%N -> unhex (hex_go k n acc) 0 = unhex acc n.
Proof.
  induction k as [| k IH]; intros n acc H.
  - cbn in H. assert (n = 0%N) as -> by lia. reflexivity.
  - cbn [hex_go]. assert (E : (n = 16 * (n / 16) + n mod 16)%N) by (apply N.div_mod'; lia). assert (L : (n mod 16 < 16)%N) by (apply N.mod_lt; lia).
    destruct (N.eqb_spec (n / 16) 0) as [Z | Z].
    + unfold unhex. cbn [fold_left]. rewrite hex_value_digit by exact L. f_equal. lia.
    + rewrite IH.
      * unfold unhex. cbn [fold_left]. rewrite hex_value_digit by exact L. f_equal. lia.
      * apply N.div_lt_upper_bound; [lia |]. replace (N.of_nat (S k)) with (1 + N.of_nat k)%N in H by lia. rewrite N.pow_add_r in H. exact H.
Qed.
Lemma hex_inj n m : hex n = hex m -> n = m.
Proof.
  assert (V : forall n, unhex (hex n) 0 = n).
  { intros k. unfold hex. rewrite unhex_go; [reflexivity |]. pose proof (N.size_gt k) as G. eapply N.lt_le_trans; [exact G |].
    rewrite Nat2N.inj_succ, N2Nat.id. transitivity (2 ^ (N.succ (N.size k)))%N; [apply N.pow_le_mono_r; lia | apply N.pow_le_mono_l; lia]. }
  intros E. rewrite <- (V n), <- (V m), E. reflexivity.
Qed.
Lemma hex_go_free k : forall n acc, Forall (fun c => c <> chr "}") acc -> Forall (fun c => c <> chr "}") (hex_go k n acc).
Proof.
  induction k as [| k IH]; intros n acc H; [exact H |]. cbn [hex_go].
  assert (H' : Forall (fun c => c <> chr "}") (hex_digit (n mod 16) :: acc)).
  { constructor; [| exact H]. assert (L : (n mod 16 < 16)%N) by (apply N.mod_lt; lia). unfold hex_digit. change (chr "}") with 125%N. destruct (_ <? _)%N; lia. }
  destruct (_ =? _)%N; auto.
Qed.
Lemma brace_split (a b x y : rstr) : Forall (fun c => c <> chr "}") a -> Forall (fun c => c <> chr "}") b -> a ++ chr "}" :: x = b ++ chr "}" :: y -> a = b /\ x = y.
Proof.
  revert b. induction a as [| c a IH]; intros [| d b] Ha Hb E; cbn [app] in E.
  - now injection E.
  - injection E as <- _. inversion Hb. congruence.
  - injection E as -> _. inversion Ha. congruence.
  - injection E as -> E. inversion Ha; subst. inversion Hb; subst. destruct (IH b) as [-> ->]; auto.
Qed.
Lemma escaped_head plain q c : exists d r, escaped plain q c = d :: r /\ (d = chr "\" \/ (d = c /\ d <> q)).
Proof.
  unfold escaped. repeat match goal with |- context [if (?a =? ?b)%N then _ else _] => destruct (N.eqb_spec a b); [eexists; eexists; split; [reflexivity | now left] |] end.
  destruct (plain c); eexists; eexists; (split; [reflexivity |]); [now right | now left].
Qed.
Lemma escaped_delimiting plain q : q <> chr "\" -> ~ In q (lit "0tnru") -> self_delimiting (escaped plain q).
Proof.
  intros Hq Hr c d x y. unfold escaped.
  assert (R : q <> 48%N /\ q <> 116%N /\ q <> 110%N /\ q <> 114%N /\ q <> 117%N /\ q <> 92%N) by (cbn in Hr; change (chr "\") with 92%N in Hq; intuition congruence). clear Hq Hr.
  change (chr "\") with 92%N.
  assert (Fc : Forall (fun c => c <> chr "}") (hex c)) by (apply hex_go_free; constructor). assert (Fd : Forall (fun c => c <> chr "}") (hex d)) by (apply hex_go_free; constructor).
  pose proof (hex_inj c d) as I. revert Fc Fd I. generalize (hex c) (hex d). intros hc hd Fc Fd I.
  destruct (N.eqb_spec c 0) as [C | C0]; [| destruct (N.eqb_spec c 9) as [C | C1]; [| destruct (N.eqb_spec c 10) as [C | C2]; [| destruct (N.eqb_spec c 13) as [C | C3]; [| destruct (N.eqb_spec c 92) as [C | C4]; [| destruct (N.eqb_spec c q) as [C | C5]; [| destruct (plain c) eqn:C6]]]]]];
  (destruct (N.eqb_spec d 0) as [D | D0]; [| destruct (N.eqb_spec d 9) as [D | D1]; [| destruct (N.eqb_spec d 10) as [D | D2]; [| destruct (N.eqb_spec d 13) as [D | D3]; [| destruct (N.eqb_spec d 92) as [D | D4]; [| destruct (N.eqb_spec d q) as [D | D5]; [| destruct (plain d) eqn:D6]]]]]]);
  intros E; cbn in E; try (split; congruence); try (exfalso; destruct R as (R1 & R2 & R3 & R4 & R5 & R6); congruence).
  injection E as E. rewrite <- !app_assoc in E. apply brace_split in E as [E1 E2]; auto.
Qed.
Lemma rust_char_delimiting plain : self_delimiting (rust_char plain).
Proof.
  intros c d x y E. unfold rust_char in E. cbn [app] in E. rewrite <- !app_assoc in E. injection E as E.
  apply escaped_delimiting in E as [-> E]; [| discriminate | cbn; intuition discriminate]. split; [reflexivity |]. now injection E.
Qed.
Lemma rust_str_delimiting plain : self_delimiting (rust_str plain).
Proof.
  intros s t x y E. unfold rust_str in E. cbn [app] in E. rewrite <- !app_assoc in E. injection E as E. revert t E.
  assert (Q : forall c z w, [quotation] ++ z = escaped plain quotation c ++ w -> False).
  { intros c z w E. destruct (escaped_head plain quotation c) as (d & r & Er & Hd). rewrite Er in E. cbn in E. injection E as <- _. destruct Hd as [H | [_ H]]; [discriminate H | now elim H]. }
  induction s as [| c s IH]; intros [| d t] E; cbn [flat_map] in E; rewrite <- ?app_assoc in E; cbn [app] in E.
  - split; [reflexivity |]. now injection E.
  - elim (Q _ _ _ E).
  - symmetry in E. elim (Q _ _ _ E).
  - apply escaped_delimiting in E as [-> E]; [| discriminate | cbn; intuition discriminate]. destruct (IH t E) as [-> ->]. auto.
Qed.

(** ** Messages *)
Section Debug.
  Variable debug_char : char -> rstr.
  Variable debug_str : rstr -> rstr.
  Hypothesis Dc : self_delimiting debug_char.
  Hypothesis Ds : self_delimiting debug_str.

  Lemma linecol_split p q x y : linecol_text p ++ lit ": " ++ x = linecol_text q ++ lit ": " ++ y -> p = q /\ x = y.
  Proof.
    unfold linecol_text. rewrite <- !app_assoc. intros E.
    assert (K : forall d x y, lit ":" ++ x = d :: y -> ~ digit d) by (intros d a b [= <- _]; unfold digit; lia).
    apply digits_split in E as [E1 E]; try apply dec_digits; try (intros a b; apply K). apply dec_inj in E1. apply app_inv_head in E.
    apply digits_split in E as [E2 E]; try apply dec_digits; try (intros a b [= <- _]; unfold digit; lia). apply dec_inj in E2. apply app_inv_head in E.
    split; [| exact E]. destruct p, q. cbn in *. congruence.
  Qed.
  Lemma more_inj l : forall m, more_expected debug_char l = more_expected debug_char m -> l = m.
  Proof.
    induction l as [| c l IH]; intros [| d m] E; cbn [more_expected] in E; try discriminate E; [reflexivity |].
    apply app_inv_head in E. apply Dc in E as [-> E]. f_equal. auto.
  Qed.
  Lemma parse_message_at e : exists r, parse_message debug_char debug_str e = linecol_text (match e with PTake x => terr_pos x | InputContinues p => p end) ++ lit ": " ++ r.
  Proof. destruct e as [[p g l | p g l | p] | p]; eexists; reflexivity. Qed.
  Theorem parse_message_inj e e' : parse_message debug_char debug_str e = parse_message debug_char debug_str e' -> e = e'.
  Proof.
    intros E.
    destruct e as [[p g l | p g l | p] | p], e' as [[p' g' l' | p' g' l' | p'] | p']; cbn [parse_message take_message] in E;
    match type of E with linecol_text ?a ++ _ = linecol_text ?b ++ _ =>
      change (lit ": Unexpected character ") with (lit ": " ++ lit "Unexpected character ") in E;
      change (lit ": Unexpected string ") with (lit ": " ++ lit "Unexpected string ") in E;
      change (lit ": Unexpected end of input") with (lit ": " ++ lit "Unexpected end of input") in E;
      change (lit ": Expected end of input") with (lit ": " ++ lit "Expected end of input") in E
    end; rewrite <- ?app_assoc in E; apply linecol_split in E as [<- E]; try discriminate E; try reflexivity.
    - apply app_inv_head in E. apply Dc in E as [<- E]. apply app_inv_head in E. do 2 f_equal.
      destruct l as [| c [| c2 l]], l' as [| d [| d2 l']]; try discriminate E; try reflexivity.
      + apply app_inv_head in E. now apply Dc in E as [-> _].
      + apply app_inv_head in E. apply Dc in E as [-> E]. f_equal. now apply more_inj in E.
    - apply app_inv_head in E. apply Ds in E as [<- E]. apply app_inv_head in E. rewrite <- (app_nil_r (debug_str l)), <- (app_nil_r (debug_str l')) in E. apply Ds in E as [-> _]. reflexivity.
  Qed.
  Lemma more_commas c l : debug_char c ++ more_expected debug_char l = commas debug_char (c :: l).
  Proof. revert c. induction l as [| d l IH]; intros c; cbn [more_expected]; [cbn [commas]; apply app_nil_r |]. rewrite IH. reflexivity. Qed.
End Debug.
