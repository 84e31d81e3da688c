(** * PropJsonBoth: exactly where the two JSON readers agree (C71). *)
From Coq Require Import String.
From Verif Require Import JsonBoth JsonBoth2 Json JsonFacts PropJson PropJsonGen.
From Verif Require Import EmitFacts JsonGenValue PropGen PropMain.
From Coq Require Import List Lia.
Open Scope list_scope.

(** Like [common], and [\u0000] may be written. *)
Definition agreed {num} (conv : rstr -> option num) : dialect num :=
  {| plain := printable_ascii; unicode u c := u = lit "0000" /\ c = 0%N; number_is w n := JsonNumber w /\ conv w = Some n; inside_empty w := w = [] |}.

Lemma hex_zero u : hex4 u -> hex_number u = 0%N -> u = lit "0000".
Proof.
  intros [Hl Hh] E. destruct u as [| a [| b [| c [| d [| ? ?]]]]]; try discriminate. unfold hex_number in E. cbn [fold_left] in E.
  assert (Z : forall x, hex_digit x -> hex_value x = 0%N -> x = 48%N).
  { intros x Hx Hz. unfold hex_digit, hex_value in *. destruct (N.leb_spec x 57), (N.leb_spec x 70); lia. }
  apply Forall_cons_iff in Hh as [Ha Hh]. apply Forall_cons_iff in Hh as [Hb Hh]. apply Forall_cons_iff in Hh as [Hc Hh]. apply Forall_cons_iff in Hh as [Hd _].
  rewrite (Z a Ha), (Z b Hb), (Z c Hc), (Z d Hd) by lia. reflexivity.
Qed.
Lemma number_chars w : number_run_text w -> Forall number_char w /\ w <> [].
Proof. intros [c w' Hc Hw]. split; [| discriminate]. constructor; [| exact Hw]. destruct Hc as [Hc | ->]; [now left | right; cbn; tauto]. Qed.

(** ** C71 *)
(** Both readers give [v] exactly on the texts that are [v] in printable ASCII
    with numbers as in RFC 8259, nothing between the brackets of empty arrays
    and objects, and no other [\u] escape than that of NUL. *)
Theorem C71_agree_exactly (checks : bool) {num} (conv : rstr -> option num) s v fuel : length s < fuel -> Forall (fun c => (c <= max_char)%N) s ->
  (parse_json checks conv fuel s = Ok v /\ exists t, parses json_tab json_root s (Ok t) /\ of_ast conv t = Some v) <-> Padded (agreed conv) s v.
Proof.
  intros Hf Ht. rewrite (C59_language checks conv fuel s Hf Ht v), C70_value. split.
  - intros [H1 H2]. eapply (padded_both (hand conv) (generated conv)); [.. | exact H1 | exact H2]; cbn.
    + tauto.
    + unfold printable_ascii. tauto.
    + tauto.
    + intros u u' c r r' [Hu Hc] H E. destruct H as [u' Hu' _ | u1 u2 _ _ K1 K2 | u1 u2 _ _ K1 K2].
      * pose proof (hex_zero u' Hu' Hc) as Ez. rewrite Ez in E. assert (Eu : u = lit "0000").
        { destruct Hu as [Hl _]. destruct u as [| x1 [| x2 [| x3 [| x4 [| ? ?]]]]]; try discriminate. cbn in E. now injection E as -> -> -> -> _. }
        split; [congruence | split; [exact Eu | exact Hc]].
      * exfalso. unfold pair_value in Hc. lia.
      * exfalso. unfold pair_value in Hc. lia.
    + intros w n [H _]. now apply number_chars.
    + intros w n [H _]. now apply number_chars, number_run_of_json.
    + tauto.
    + intros w ->. constructor.
    + auto.
    + auto.
  - intros H. split; revert H.
    + apply (texts_same (agreed conv) (hand conv)); cbn; auto.
      * intros w n [Hw E]. split; [now apply number_run_of_json | exact E].
      * intros w x [w' s' Hs]. constructor. induction Hs as [| c w1 s1 (Hp & H1 & H2) _ IH | e c w1 s1 He _ IH | u c w1 s1 [-> ->] _ IH].
        -- constructor.
        -- apply chars_plain; [| exact IH]. cbn. split; [| auto]. unfold max_char. lia.
        -- now apply chars_escape.
        -- apply chars_unicode; [| exact IH]. cbn. split; [| reflexivity]. split; [reflexivity |]. repeat (constructor; [left; cbn; lia |]). constructor.
    + apply (texts_same (agreed conv) (generated conv)); cbn; auto.
      * intros w x [w' s' Hs]. constructor. induction Hs as [| c w1 s1 Hp _ IH | e c w1 s1 He _ IH | u c w1 s1 [-> ->] _ IH].
        -- constructor.
        -- now apply chars_plain.
        -- now apply chars_escape.
        -- apply chars_unicode; [| exact IH]. cbn. apply (one_unit (lit "0000")); [split; [reflexivity |]; repeat (constructor; [left; cbn; lia |]); constructor |].
           cbn. unfold surrogate, high_surrogate, low_surrogate. lia.
      * intros w ->. constructor.
Qed.
Print Assumptions C71_agree_exactly.

(** Like [agreed], with any [\u] escape, read as NUL (what the hand-written
    reader makes of it). *)
Definition both_read {num} (conv : rstr -> option num) : dialect num :=
  {| plain := printable_ascii; unicode u c := hex4 u /\ c = 0%N; number_is w n := JsonNumber w /\ conv w = Some n; inside_empty w := w = [] |}.
(** The texts both parsers accept; the hand-written one reads them as [v]. *)
Theorem C71_both_accept (checks : bool) {num} (conv : rstr -> option num) s v fuel : length s < fuel -> Forall (fun c => (c <= max_char)%N) s ->
  (parse_json checks conv fuel s = Ok v /\ exists t, parses json_tab json_root s (Ok t)) <-> Padded (both_read conv) s v.
Proof.
  intros Hf Ht. rewrite (C59_language checks conv fuel s Hf Ht v).
  assert (R : (exists t, parses json_tab json_root s (Ok t)) <-> exists v, Padded rfc8259 s v).
  { destruct C69_language as (tab & root & out & E & H). destruct json_compiled as [out' E']. rewrite E in E'. injection E' as -> -> _. apply H. }
  rewrite R. split.
  - intros [H1 [v' H2]]. eapply (padded_both2 (hand conv) rfc8259); [.. | exact H1 | exact H2]; cbn.
    + tauto.
    + unfold printable_ascii. tauto.
    + tauto.
    + intros u u' c c' r r' [Hu ->] [Hu' ->] E. split; [| auto]. destruct Hu as [Hl _], Hu' as [Hl' _].
      destruct u as [| x1 [| x2 [| x3 [| x4 [| ? ?]]]]]; try discriminate. destruct u' as [| y1 [| y2 [| y3 [| y4 [| ? ?]]]]]; try discriminate. cbn in E. now injection E as -> -> -> -> _.
    + intros w n [H _]. now apply number_chars.
    + intros w n [H _]. now apply number_chars, number_run_of_json.
    + intros w n n' [_ H] [H' _]. auto.
    + intros w ->. constructor.
    + auto.
    + auto.
  - intros H. split.
    + revert H. apply (texts_same (both_read conv) (hand conv)); cbn; auto.
      * intros w n [Hw E]. split; [now apply number_run_of_json | exact E].
      * intros w x [w' s' Hs]. constructor. induction Hs as [| c w1 s1 (Hp & H1 & H2) _ IH | e c w1 s1 He _ IH | u c w1 s1 Hu _ IH].
        -- constructor.
        -- apply chars_plain; [| exact IH]. cbn. split; [| auto]. unfold max_char. lia.
        -- now apply chars_escape.
        -- now apply chars_unicode.
    + revert H. apply (texts_change (both_read conv) rfc8259); cbn.
      * intros w n [Hw _]. eauto.
      * intros w x [w' s' Hs]. exists s'. constructor. induction Hs as [| c w1 s1 Hp _ IH | e c w1 s1 He _ IH | u c w1 s1 Hu _ IH].
        -- constructor.
        -- now apply chars_plain.
        -- now apply chars_escape.
        -- now apply chars_unicode.
      * intros w ->. constructor.
Qed.
Print Assumptions C71_both_accept.
Definition ex_both : rstr := lit "[" ++ quoted_text (lit "a\u0000") ++ lit ", 10]".
Example C71_ex_both : Padded (agreed (fun w => Some w)) ex_both (JArray [JString (lit "a" ++ [0%N]); JNumber (lit "10")]).
Proof.
  apply (padded _ [] ex_both []); [constructor | | constructor]. apply (val_array _ (quoted_text (lit "a\u0000") ++ lit "," ++ lit " 10")). apply (elements_more _ (quoted_text (lit "a\u0000"))).
  - apply (padded _ [] (quoted_text (lit "a\u0000")) []); [constructor | | constructor]. apply val_string. apply (quoted _ (lit "a\u0000")).
    apply (chars_plain _ (chr "a")); [split; [split; vm_compute; discriminate | split; discriminate] |]. apply (chars_unicode _ (lit "0000") 0%N []); [split; reflexivity | constructor].
  - constructor. apply (padded _ (lit " ") (lit "10") []); [repeat constructor; cbn; tauto | | constructor]. apply val_number. cbn. split; [| reflexivity].
    apply (json_number [] (lit "10") [] []); [now left | right; exists (chr "1"), (lit "0"); split; [reflexivity |]; split; [split; vm_compute; discriminate |]; constructor; [split; vm_compute; discriminate | constructor] | now left | now left].
Qed.
