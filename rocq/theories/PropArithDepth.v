(** * C107: how deeply the hand-written arithmetic parser recurses. *)
From Coq Require Import String ZArith.
From Verif Require Import ArithDepth SpecArithDepth ArithDepthFacts JsonRead JsonDepthFacts SpecArith PropArith.
From Coq Require Import List Lia.
Open Scope list_scope.

Definition whole checks loops nest s := take_expr_of checks (take_product checks (take_term_nested checks loops nest) loops) loops (spaces (iw_new s)).
Lemma spaces_parens s : parens (remaining (spaces (iw_new s))) <= parens s.
Proof. destruct (r_spaces (iw_new s)) as (a & A1 & A2). change (remaining (iw_new s)) with s in A1. pose proof (P_blank mild mild_nil mild_app mild_char a A2 (remaining (spaces (iw_new s)))) as H. now rewrite <- A1 in H. Qed.

(** Whatever the text, [take_term] is never nested deeper than one more than the
    most parentheses that are open at any place of it: with that much room the
    parser gives what it gives with no bound at all, errors and panics included. *)
Theorem C107_parens : forall checks fuel n s, 2 * length s + 2 <= fuel -> open_at_most n s ->
  parse_expr_nested checks fuel (S n) s = parse_expr checks fuel s.
Proof.
  intros checks fuel n s HL HO. apply parens_at_most in HO. pose proof (C55_never_hangs fuel checks s HL) as Ha. unfold parse_expr_nested, parse_expr, take_expr in *.
  rewrite (expr_agree checks mild (fun r => parens r < S n) mild_nil mild_app mild_char (below_cut (S n)) (take_term checks fuel) (take_term_nested checks fuel (S n)) fuel fuel (term_mild checks fuel) (term_enough checks fuel fuel (S n) (le_n _)) (le_n _)); [reflexivity | pose proof (spaces_parens s); lia |].
  intros K. destruct (take_expr_of checks (take_product checks (take_term checks fuel) fuel) fuel (spaces (iw_new s))) as [o st]. cbn [fst] in K. subst o. now apply Ha.
Qed.
(** When the text has a value, the nesting is exactly that: with less room the
    parser cannot finish. *)
Theorem C107_exact : forall checks fuel n s z, 2 * length s + 2 <= fuel -> parse_expr checks fuel s = Ok z ->
  (open_at_most n s -> parse_expr_nested checks fuel (S n) s = Ok z) /\ (~ open_at_most n s -> parse_expr_nested checks fuel (S n) s = OutOfFuel) /\ parse_expr_nested checks fuel 0 s = OutOfFuel.
Proof.
  intros checks fuel n s z HL Hp. split; [intros HO; now rewrite C107_parens |]. split; [| reflexivity]. intros HO.
  assert (HM : forall N, N >= parens s -> open_at_most N s) by (intros N HN; now apply parens_at_most).
  pose (M := S (parens s + n)). assert (EM : parse_expr_nested checks fuel M s = Ok z) by (rewrite <- Hp; apply C107_parens; [exact HL | apply HM; lia]).
  assert (Q : alive (whole checks fuel (S n) s) -> False).
  { intros Ha. apply HO, parens_at_most.
    pose proof (expr_agree checks (fun _ => True) (fun _ => True) I (fun _ _ _ _ => I) (fun _ _ => I) (fun _ _ _ _ => I) (take_term_nested checks fuel (S n)) (take_term_nested checks fuel M) fuel fuel) as A.
    specialize (A ltac:(intros st2 v st3 E; destruct (nested_shaped checks fuel (S n) st2 v st3 E) as (w & W & _); eauto) (nested_more checks fuel (S n) M ltac:(lia)) (le_n _) (spaces (iw_new s)) I Ha).
    unfold parse_expr_nested in EM. unfold whole in Ha. rewrite A in EM. destruct (take_expr_of checks (take_product checks (take_term_nested checks fuel (S n)) fuel) fuel (spaces (iw_new s))) as [[v | e | |] st] eqn:E; try discriminate.
    destruct (iw_peek st) as [p st1] eqn:Ep. destruct p; [discriminate |]. apply peek_inv in Ep as [Ep _].
    pose proof (expr_shaped checks (deep n) (deep_nil n) (deep_app n) (deep_char n) _ fuel (product_shaped checks (deep n) (deep_nil n) (deep_app n) (deep_char n) _ fuel (nested_shaped checks fuel (S n))) _ _ _ E) as (w & W1 & W2).
    destruct (r_spaces (iw_new s)) as (a & A1 & A2). change (remaining (iw_new s)) with s in A1. assert (remaining st = []) as R0 by (destruct (remaining st); [reflexivity | discriminate]). rewrite R0, app_nil_r in W1.
    pose proof (deep_app n a w (P_blank (deep n) (deep_nil n) (deep_app n) (deep_char n) a A2) W2 []) as D. rewrite app_nil_r, <- W1, <- A1 in D. cbn [parens] in D. lia. }
  unfold alive, whole in Q. unfold parse_expr_nested. destruct (take_expr_of checks (take_product checks (take_term_nested checks fuel (S n)) fuel) fuel (spaces (iw_new s))) as [[v | e | |] st]; cbn [fst] in Q; try reflexivity; exfalso; apply Q; discriminate.
Qed.
(** Chains of operators need no recursion: without parentheses one call is
    enough, however long the text. *)
Corollary C107_flat : forall checks fuel s, 2 * length s + 2 <= fuel -> ~ In (chr "(") s -> parse_expr_nested checks fuel 1 s = parse_expr checks fuel s.
Proof.
  intros checks fuel s HL Hs. apply C107_parens; [exact HL |]. intros u v ->. unfold times. rewrite (proj1 (count_occ_not_In N.eq_dec u (chr "("))); [lia |]. intros K. apply Hs, in_app_iff. now left.
Qed.
(** There is no bound: a text of 2n + 1 characters needs n + 1 nested calls. *)
Fixpoint wraps (n : nat) : rstr := match n with O => lit "1" | S n => lit "(" ++ wraps n ++ lit ")" end.
Lemma wraps_parens n : forall r, parens (wraps n ++ r) = Nat.max n (parens r).
Proof.
  induction n as [| n IH]; intros r; [reflexivity |]. cbn [wraps]. rewrite <- !app_assoc. change (parens (lit "(" ++ wraps n ++ lit ")" ++ r)) with (S (parens (wraps n ++ lit ")" ++ r))). rewrite IH. change (parens (lit ")" ++ r)) with (pred (parens r)). lia.
Qed.
Theorem C107_deep : forall checks n, length (wraps n) = 2 * n + 1 /\ forall fuel, 2 * length (wraps n) + 2 <= fuel ->
  parse_expr checks fuel (wraps n) = Ok 1%Z /\ parse_expr_nested checks fuel n (wraps n) = OutOfFuel.
Proof.
  intros checks n. split; [induction n as [| n IH]; cbn [wraps]; [reflexivity | rewrite !app_length, IH; cbn; lia] |]. intros fuel HL.
  assert (E : parse_expr checks fuel (wraps n) = Ok 1%Z).
  { apply C55_value; [exact HL |]. exists [], (wraps n). split; [reflexivity |]. split; [constructor |]. clear HL.
    assert (D : decimal (machine checks) (Some 0%Z) (lit "1") = Some 1%Z) by (destruct checks; vm_compute; reflexivity).
    induction n as [| n IH]; cbn [wraps]; apply expr_prod, prod_term.
    - rewrite <- (app_nil_r (lit "1")). apply term_num; [| constructor]. rewrite <- D. apply number; [discriminate |]. repeat constructor; cbn; lia.
    - pose proof (term_paren (machine checks) [] (wraps n) (Some 1%Z) [] ltac:(constructor) IH ltac:(constructor)) as T. rewrite app_nil_r in T. exact T. }
  split; [exact E |]. destruct n as [| n]; [reflexivity |]. apply (C107_exact checks fuel n _ _ HL E). rewrite <- parens_at_most. rewrite <- (app_nil_r (wraps (S n))), wraps_parens. cbn [parens]. lia.
Qed.
(** ** Examples *)
Example C107_ex : let s := lit "(1+2)*((3))-4" in open_at_most 2 s /\ ~ open_at_most 1 s /\ parse_expr true 50 s = Ok 5%Z /\ parse_expr_nested true 50 3 s = Ok 5%Z /\ parse_expr_nested true 50 2 s = OutOfFuel.
Proof. cbn zeta. split; [apply parens_at_most; vm_compute; lia |]. split; [rewrite <- parens_at_most; vm_compute; lia |]. split; [vm_compute; reflexivity |]. split; vm_compute; reflexivity. Qed.
Example C107_ex_bad : open_at_most 2 (lit "((x") /\ parse_expr_nested true 50 3 (lit "((x") = parse_expr true 50 (lit "((x").
Proof. split; [apply parens_at_most; vm_compute; lia | vm_compute; reflexivity]. Qed.
Print Assumptions C107_parens.
Print Assumptions C107_exact.
Print Assumptions C107_flat.
Print Assumptions C107_deep.
