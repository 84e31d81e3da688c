(** * C104: how deeply the hand-written JSON reader recurses. *)
From Coq Require Import String ZArith.
From Verif Require Import JsonDepth SpecJsonDepth JsonDepthFacts JsonRead.
From Coq Require Import List Lia.
Open Scope list_scope.

(** Whatever the text, [Value::take] is never nested deeper than one more than
    the number of opening brackets in it: with that much room the reader gives
    what it gives with no bound at all, errors and panics included. *)
Theorem C104_brackets : forall num checks (conv : rstr -> option num) fuel nest s, valid_text s -> length s < fuel -> opens s < nest ->
  parse_nested checks conv fuel nest s = parse_json checks conv fuel s.
Proof.
  intros num checks conv fuel nest s HV HL HO. unfold parse_nested, parse_json, parse_with. rewrite (nested_enough checks conv fuel fuel nest (iw_new s)); [reflexivity | lia |]. now repeat split.
Qed.
(** When a value is read, the nesting is exactly the depth of that value: with
    less room the reader cannot finish. *)
Theorem C104_exact : forall num checks (conv : rstr -> option num) fuel nest s v, valid_text s -> length s < fuel -> parse_json checks conv fuel s = Ok v ->
  parse_nested checks conv fuel nest s = (if Nat.leb (value_depth v) nest then Ok v else OutOfFuel).
Proof.
  intros num checks conv fuel nest s v HV HL Hp. rewrite <- (C104_brackets num checks conv fuel (S (opens s)) s HV HL (le_n _)) in Hp. unfold parse_nested, parse_with in Hp |- *.
  destruct (take_nested checks conv fuel (S (opens s)) (iw_new s)) as [x st] eqn:E. assert (x = Ok v) as -> by (destruct x as [v' | e | |]; try discriminate; destruct (fst (iw_peek st)); congruence).
  destruct (nested_depth _ _ _ _ _ _ _ E) as [D1 D2]. destruct (Nat.leb_spec (value_depth v) nest) as [Hn | Hn]; [now rewrite (D2 _ Hn) |].
  destruct (take_nested checks conv fuel nest (iw_new s)) as [y st2] eqn:E2. assert (y = OutOfFuel) as ->; [| reflexivity].
  assert (Q : alive (take_nested checks conv fuel nest (iw_new s)) -> False).
  { intros Ha. pose proof (nested_mono checks conv fuel nest (S (opens s)) (iw_new s) ltac:(lia) Ha) as M. rewrite E in M. symmetry in M. apply nested_depth in M as [M _]. lia. }
  rewrite E2 in Q. unfold alive in Q. cbn [fst] in Q. destruct y; try reflexivity; exfalso; apply Q; discriminate.
Qed.
(** So a value read from a text is at most one deeper than the text has opening
    brackets, and a text without brackets is read without any recursion. *)
Corollary C104_depth : forall num checks (conv : rstr -> option num) fuel s v, valid_text s -> length s < fuel -> parse_json checks conv fuel s = Ok v -> value_depth v <= S (opens s).
Proof.
  intros num checks conv fuel s v HV HL Hp. pose proof (C104_exact num checks conv fuel (S (opens s)) s v HV HL Hp) as E. rewrite (C104_brackets num checks conv fuel (S (opens s)) s HV HL (le_n _)), Hp in E.
  destruct (Nat.leb_spec (value_depth v) (S (opens s))); [assumption | discriminate].
Qed.
(** There is no bound: a text of 2n + 2 characters needs n + 1 nested calls. *)
Fixpoint boxes (n : nat) : rstr := match n with O => lit "[]" | S n => lit "[" ++ boxes n ++ lit "]" end.
Theorem C104_deep : forall num checks (conv : rstr -> option num) n, exists v, length (boxes n) = 2 * n + 2 /\ valid_text (boxes n) /\
  forall fuel, length (boxes n) < fuel -> parse_json checks conv fuel (boxes n) = Ok v /\ value_depth v = n + 1 /\ parse_nested checks conv fuel n (boxes n) = OutOfFuel.
Proof.
  intros num checks conv n. assert (Q : exists v, length (boxes n) = 2 * n + 2 /\ valid_text (boxes n) /\ Padded (hand conv) (boxes n) v /\ value_depth v = n + 1).
  { induction n as [| n (v & I1 & I2 & I3 & I4)].
    - exists (JArray []). split; [reflexivity |]. split; [repeat constructor; discriminate |]. split; [| reflexivity]. apply (padded _ [] (lit "[]") []); [constructor | | constructor]. apply (val_array0 (hand conv) []). reflexivity.
    - exists (JArray [v]). cbn [boxes]. split; [rewrite !app_length, I1; cbn; lia |]. split; [apply Forall_app; split; [repeat constructor; discriminate | apply Forall_app; split; [exact I2 | repeat constructor; discriminate]] |]. split.
      + pose proof (padded (hand conv) [] (lit "[" ++ boxes n ++ lit "]") [] (JArray [v])) as P. rewrite app_nil_r in P. cbn [app] in P. apply P; [constructor | | constructor]. apply val_array. now apply elements_one.
      + cbn [value_depth map fold_right]. rewrite I4. lia. }
  destruct Q as (v & I1 & I2 & I3 & I4). exists v. split; [exact I1 |]. split; [exact I2 |]. intros fuel Hf. assert (E : parse_json checks conv fuel (boxes n) = Ok v) by (now apply parse_json_ok). split; [exact E |]. split; [exact I4 |].
  rewrite (C104_exact _ _ _ _ _ _ _ I2 Hf E), I4. destruct (Nat.leb_spec (n + 1) n); [lia | reflexivity].
Qed.
(** ** Examples *)
Definition ex_text : rstr := lit "[1, [2, {" ++ [quote] ++ lit "a[[[" ++ [quote] ++ lit ": [3]}], 4]".
Example C104_ex : valid_text ex_text /\ length ex_text < 50 /\ opens ex_text = 7 /\ exists v, parse_json true (fun s => Some s) 50 ex_text = Ok v /\ value_depth v = 5
  /\ parse_nested true (fun s => Some s) 50 4 ex_text = OutOfFuel /\ parse_nested true (fun s => Some s) 50 5 ex_text = Ok v.
Proof. split; [repeat constructor; discriminate |]. split; [vm_compute; lia |]. split; [reflexivity |]. exists (JArray [JNumber (lit "1"); JArray [JNumber (lit "2"); JObject [(lit "a[[[", JArray [JNumber (lit "3")])]]; JNumber (lit "4")]). split; [vm_compute; reflexivity |]. split; [reflexivity |]. split; vm_compute; reflexivity. Qed.
(** An error and a panic, both two calls deep. *)
Example C104_ex_bad : parse_nested true (fun s : rstr => Some s) 50 3 (lit "[[,") = parse_json true (fun s => Some s) 50 (lit "[[,") /\ opens (lit "[[,") = 2
  /\ parse_nested true (fun _ : rstr => @None nat) 50 2 (lit "[1]") = Panic.
Proof. split; [vm_compute; reflexivity |]. split; vm_compute; reflexivity. Qed.
Print Assumptions C104_brackets.
Print Assumptions C104_exact.
Print Assumptions C104_depth.
Print Assumptions C104_deep.
