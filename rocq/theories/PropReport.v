(** * PropReport: the error messages of generated parsers (C86).

    Vocabulary: [parse_message] (Messages: the [Display] of chewed's errors,
    over the standard library's [{:?}]), [located_text], [commas],
    [self_delimiting] (SpecReport), [compiles], [parses] (PropGen), [spec_pos]
    (SpecRuntime). *)
From Coq Require Import String.
From Verif Require Import ExpectFacts PropGen PropViable Examples.
From Coq Require Import List.
Open Scope list_scope.

(** ** C86 *)
Section Debug.
  Variable debug_char : char -> rstr.
  Variable debug_str : rstr -> rstr.

  (** What a generated parser says about an input it rejects: the line and
      column of the first character that was not consumed, and one of four
      remarks.  The list of expected characters is never empty, has no
      repetition and does not have the character that was met. *)
  Theorem C86_text : forall cs e r tab root s x, compiles cs e r tab root -> parses tab root s (Err x) ->
    exists u rest, s = u ++ rest /\
      let p := spec_pos u (hd_error rest) in
      exists remark, parse_message debug_char debug_str x = located_text (line p) (col p) remark /\
        match x with
        | PTake (BadBranch _ c [d]) => c <> d /\ remark = lit "Unexpected character " ++ debug_char c ++ lit ". Expected character " ++ debug_char d ++ lit "."
        | PTake (BadBranch _ c l) => 2 <= List.length l /\ NoDup l /\ ~ In c l /\ remark = lit "Unexpected character " ++ debug_char c ++ lit ". Expected one of " ++ commas debug_char l
        | PTake (BadString _ got expected) => remark = lit "Unexpected string " ++ debug_str got ++ lit ". Expected " ++ debug_str expected
        | PTake (EndOfStream _) => remark = lit "Unexpected end of input"
        | InputContinues _ => remark = lit "Expected end of input"
        end.
  Proof.
    intros cs e r tab root s x H Hx. destruct (C29_error_position _ _ _ _ _ _ _ H Hx) as (u & rest & Hs & Hp & _). exists u, rest. split; [exact Hs |].
    assert (T : match x with PTake y => told y | _ => True end).
    { destruct x as [y |]; [| exact Logic.I]. destruct (compiles_table _ _ _ _ _ H) as (m & _ & Hroot & Hgood & _ & _ & Hl).
      assert (Hf : forall id, id < List.length tab -> flat_ok tab (tau m) id) by (intros id Hid; apply Hgood; exact Hid).
      destruct Hx as [_ [fuel Hx]]. pose proof (Hx fuel (le_n _)) as E. rewrite parse_take in E. destruct (take tab fuel root (iw_new s)) as [[v | z | |] st] eqn:Et; try discriminate.
      - destruct (remaining st); discriminate.
      - injection E as ->. exact (take_told tab _ Hf Hl _ _ _ _ _ Hroot Et). }
    cbv zeta. rewrite <- Hp. clear - T. unfold located_text. destruct x as [[p g l | p g l | p] | p]; cbn [parse_message take_message perr_pos terr_pos]; unfold linecol_text; rewrite <- ?app_assoc.
    - destruct T as (T1 & T2 & T3). destruct l as [| c [| d l]]; [congruence | |]; (eexists; split; [do 3 f_equal; exact eq_refl |]).
      + split; [| reflexivity]. intros ->. apply T3. now left.
      + split; [cbn; lia |]. split; [exact T2 |]. split; [exact T3 |]. change (commas debug_char (c :: d :: l)) with (debug_char c ++ lit ", " ++ commas debug_char (d :: l)).
        rewrite <- more_commas. cbn [more_expected]. reflexivity.
    - eexists. split; [do 3 f_equal; exact eq_refl | reflexivity].
    - eexists. split; [do 3 f_equal; exact eq_refl | reflexivity].
    - eexists. split; [do 3 f_equal; exact eq_refl | reflexivity].
  Qed.

  (** From the text of a message, the error can be read back: if where the
      writing of a character or a string ends can be seen, two errors with the
      same message are the same.  *)
  Theorem C86_readable : self_delimiting debug_char -> self_delimiting debug_str ->
    forall x y, parse_message debug_char debug_str x = parse_message debug_char debug_str y -> x = y.
  Proof. intros Hc Hs x y. now apply parse_message_inj. Qed.
End Debug.
Print Assumptions C86_text.
Print Assumptions C86_readable.
(** The standard library's writing is like that, whatever its tables of
    printable characters. *)
Theorem C86_debug : forall plain, self_delimiting (rust_char plain) /\ self_delimiting (rust_str plain).
Proof. intros plain. split; [apply rust_char_delimiting | apply rust_str_delimiting]. Qed.
Print Assumptions C86_debug.
Definition ascii (c : char) : bool := ((32 <=? c) && (c <? 127))%N%bool.
Definition says_text (e : nexpr) (s : rstr) (m : rstr) : Prop :=
  exists r tab root x, compiles cs0 e r tab root /\ parses tab root s (Err x) /\ parse_message (rust_char ascii) (rust_str ascii) x = m.
Lemma says_text_run e s x m : run e s = Some (Err x) -> parse_message (rust_char ascii) (rust_str ascii) x = m -> says_text e s m.
Proof. intros R M. destruct (run_parses _ _ _ R) as (r & tab & root & H1 & H2); [discriminate |]. exists r, tab, root, x. auto. Qed.
Example C86_ex :
  says_text ex_expect (lit "ad") (lit "1:1: Unexpected character 'd'. Expected one of 'b', 'c'")
  /\ says_text (cat2 (L "abc") (L "d")) (lit "abx") (lit "1:2: Unexpected string " ++ [34%N] ++ lit "abx" ++ [34%N] ++ lit ". Expected " ++ [34%N] ++ lit "abc" ++ [34%N])
  /\ says_text (cat2 (L "abc") (L "d")) (lit "abc") (lit "1:3: Unexpected end of input")
  /\ says_text (cat2 (ELit a0 [97%N; 10%N]) (L "d")) ([97%N; 10%N] ++ lit "dx") (lit "2:1: Expected end of input")
  /\ rust_char ascii 10%N = lit "'\n'" /\ rust_char ascii 233%N = lit "'\u{e9}'" /\ rust_char ascii 39%N = lit "'\''".
Proof.
  repeat split; try reflexivity; (eapply says_text_run; [vm_compute; reflexivity | vm_compute; reflexivity]).
Qed.
