(** * PropJsonLalr: the LALRPOP grammar of the JSON benchmark (C88).

    Vocabulary: [json_lalr_reads] (JsonLalr: the text is a sentence of
    chomp-bench/src/json/lalr.lalrpop, with this value, [None] being a panic),
    [Padded] (SpecJson: JSON texts in a dialect), [lalrpop], [loose_common],
    [respaced] (SpecJsonLalr), [parses], [of_ast] (the generated parser and its
    conversion), [parse_json] (the hand-written parser), [display]. *)
From Coq Require Import String ZArith.
From Verif Require Import EmitFacts JsonLalrFacts PropGen PropMain PropJson PropJsonGen.
From Coq Require Import List Lia.
Open Scope list_scope.

(** ** The language *)
Section C88.
  Context {num : Type}.
  Variable conv : rstr -> option num.
  (** Every text of the dialect is read, with its value. *)
  Theorem C88_complete s v : Padded (lalrpop conv) s v -> json_lalr_reads conv s (Some v).
  Proof. apply lalr_complete. Qed.
  (** A text that is read is in the dialect, once white space outside JSON's is
      replaced by spaces. *)
  Theorem C88_sound s v : json_lalr_reads conv s (Some v) -> exists s', respaced white s s' /\ Padded (lalrpop conv) s' v.
  Proof. apply lalr_sound. Qed.
  (** Exactly, without such white space. *)
  Theorem C88_language s v : (forall c, In c s -> white c = true -> ws [c]) -> (json_lalr_reads conv s (Some v) <-> Padded (lalrpop conv) s v).
  Proof.
    intros Hs. split; [| apply C88_complete]. intros H. apply C88_sound in H as (s' & R & H).
    assert (E : s' = s); [| now rewrite <- E]. clear H. unfold respaced in R. induction R as [| c c' s s' Hc _ IH]; [reflexivity |]. f_equal.
    - destruct Hc as [-> | (W & N & _)]; [reflexivity |]. exfalso. apply N, Hs; [now left | exact W].
    - apply IH. intros d Hd. apply Hs. now right.
  Qed.
  (** A text has at most one value, or panics, not both. *)
  Theorem C88_one_value s v w : json_lalr_reads conv s v -> json_lalr_reads conv s w -> v = w.
  Proof. apply lalr_one. Qed.

  (** ** Against the generated parser *)
  Lemma generated_lalrpop s v : Padded (generated conv) s v -> Padded (lalrpop conv) s v.
  Proof.
    apply (texts_same (generated conv) (lalrpop conv)).
    - intros w n [Hw E]. split; [now apply strict_number | exact E].
    - intros w x [w' s' Hs]. constructor. induction Hs as [| c w1 s1 (Hp & H1 & H2) _ IH | e c w1 s1 He _ IH | u c w1 s1 Hu _ IH].
      + constructor.
      + apply chars_plain; [| exact IH]. split; [unfold max_char; lia | auto].
      + now apply chars_escape.
      + apply chars_unicode; [| exact IH]. destruct Hu as [u H1 H2 | u u' H1 H2 H3 H4 | u u' H1 H2 H3 H4].
        * apply loose_one; [now apply unit_digits | exact H2].
        * apply loose_high_low; auto; now apply unit_digits.
        * apply loose_low_high; auto; now apply unit_digits.
    - auto.
  Qed.
  (** Whatever the generated parser reads and [Value::from] converts, it reads
      with the same value. *)
  Theorem C88_generated s t v : parses json_tab json_root s (Ok t) -> of_ast conv t = Some v -> json_lalr_reads conv s (Some v).
  Proof. intros H E. apply C88_complete, generated_lalrpop. apply C70_value. eauto. Qed.

  (** ** Against the hand-written parser *)
  Lemma loose_run w : LooseNumber w -> number_run_text w.
  Proof.
    intros H. apply num_re_loose in H. pose proof (num_chars w H) as F. destruct (num_head w H) as (c & w' & -> & Hc). apply Forall_cons_iff in F as [_ F]. now constructor.
  Qed.
  Lemma common_hand s v : Padded (loose_common conv) s v -> Padded (hand conv) s v.
  Proof.
    apply (texts_same (loose_common conv) (hand conv)).
    - intros w n [Hw E]. split; [now apply loose_run | exact E].
    - intros w x [w' s' Hs]. constructor. induction Hs as [| c w1 s1 Hp _ IH | e c w1 s1 He _ IH | u c w1 s1 [] _ IH]; [constructor | now apply chars_plain | now apply chars_escape].
    - auto.
  Qed.
  Lemma common_lalrpop s v : Padded (loose_common conv) s v -> Padded (lalrpop conv) s v.
  Proof.
    apply (texts_same (loose_common conv) (lalrpop conv)).
    - auto.
    - intros w x [w' s' Hs]. constructor. induction Hs as [| c w1 s1 Hp _ IH | e c w1 s1 He _ IH | u c w1 s1 [] _ IH]; [constructor | now apply chars_plain | now apply chars_escape].
    - intros w ->. constructor.
  Qed.
  Theorem C88_hand (checks : bool) s v fuel : Padded (loose_common conv) s v -> length s < fuel ->
    parse_json checks conv fuel s = Ok v /\ json_lalr_reads conv s (Some v).
  Proof.
    intros H Hf. split; [| now apply C88_complete, common_lalrpop]. apply common_hand in H. apply parse_json_ok; [exact Hf | now apply (texts_valid conv) in H | exact H].
  Qed.
  (** What is printed is read back, whatever the characters. *)
  Theorem C88_round_trip (checks : bool) (show : num -> rstr) v t :
    everywhere is_text (fun n => LooseNumber (show n) /\ conv (show n) = Some n) (@NoDup rstr) v ->
    display checks show v = Some t -> exists v', json_lalr_reads conv t (Some v') /\ same v v'.
  Proof.
    intros Hv Hd.
    assert (Hw : everywhere valid_text (fun _ => True) (fun _ => True) v) by (revert Hv; apply everywhere_impl; auto).
    assert (Hc : everywhere clean (fun _ => True) (fun _ => True) v) by (apply (display_iff checks conv show v Hw); congruence).
    assert (Hf : everywhere (Forall (fun c => (c <= max_char)%N /\ ~ unprintable c)) (fun n => LooseNumber (show n) /\ conv (show n) = Some n) (fun _ => True) v).
    { clear - Hv Hc. induction v as [| b | n | s | l IH | l IH] using value_ind'; inversion Hv; inversion Hc; subst; constructor; auto.
      - unfold clean, is_text in *. rewrite Forall_forall in *. auto.
      - rewrite Forall_forall in *. intros x Hx. apply (IH x Hx); auto.
      - rewrite Forall_forall in *. intros x Hx. match goal with Hx2 : forall e, In e l -> is_text (fst e) /\ _, Hx3 : forall e, In e l -> clean (fst e) /\ _ |- _ => specialize (Hx2 x Hx) as [Ha Hb]; specialize (Hx3 x Hx) as [Hc2 Hd] end.
        split; [| now apply (IH x Hx)]. unfold clean, is_text in *. rewrite Forall_forall in *. auto. }
    destruct (display_in checks show (lalrpop conv) (fun c => (c <= max_char)%N /\ ~ unprintable c) (fun n => LooseNumber (show n) /\ conv (show n) = Some n)) with (v := v) as (t' & E & Hval); auto.
    - intros c [H1 H2]. destruct (valid_plain_cases c) as [E | [-> | [-> | [-> | [-> | [-> | [-> | [-> | E]]]]]]]]; [exact H1 | | | | | | | | | contradiction];
        try (eexists; split; [reflexivity |]; apply chars_escape; [cbn; auto 12 | constructor]).
      exists [c]. unfold write_char. rewrite E. split; [reflexivity |]. apply chars_plain; [| constructor]. now apply is_plain_iff in E.
    - constructor.
    - rewrite E in Hd. injection Hd as <-. exists (rotate v). split; [| exact (same_rotate conv _ _ _ Hv)]. apply C88_complete.
      rewrite <- (app_nil_r t'). apply (padded _ [] t' []); [constructor | exact Hval | constructor].
  Qed.
End C88.

(** ** Where they differ *)
Lemma reads_text {num} (conv : rstr -> option num) w v : Val (lalrpop conv) w v -> json_lalr_reads conv w (Some v).
Proof. intros H. apply C88_complete. rewrite <- (app_nil_r w). apply (padded _ [] w []); [constructor | exact H | constructor]. Qed.
Lemma json_rejects s fuel x : GenSem.parse_str json_tab fuel json_root s = Err x -> forall t, ~ parses json_tab json_root s (Ok t).
Proof.
  intros E t Ht. assert (Hx : parses json_tab json_root s (Err x)) by (rewrite <- E; apply parses_run; rewrite E; discriminate).
  pose proof (parses_fun _ _ _ _ _ Ht Hx). discriminate.
Qed.
(** A number may end in a point, *)
Theorem C88_point_refuted : json_lalr_reads (fun w => Some w) (lit "1.") (Some (JNumber (lit "1."))) /\ forall t, ~ parses json_tab json_root (lit "1.") (Ok t).
Proof.
  split.
  - apply reads_text, val_number. split; [| reflexivity]. apply (bare_point (lit "1") []); [| discriminate |].
    + intros c [<- | []]. left. unfold digit. cbn. lia.
    + apply (json_number [] (lit "1") (lit ".0") []); [now left | | | now left].
      * right. exists (chr "1"), []. split; [reflexivity |]. split; [cbn; lia | constructor].
      * right. exists (lit "0"). split; [reflexivity |]. split; [discriminate |]. constructor; [unfold digit; cbn; lia | constructor].
  - destruct (GenSem.parse_str json_tab 200 json_root (lit "1.")) as [| x | |] eqn:E; [vm_compute in E; discriminate E | exact (json_rejects _ _ _ E) | vm_compute in E; discriminate E ..].
Qed.
(** a plus sign may stand for the first digit of a [\u] escape, *)
Theorem C88_plus_refuted {num} (conv : rstr -> option num) (checks : bool) : json_lalr_reads conv (quoted_text (lit "\u+041")) (Some (JString (lit "A")))
  /\ (forall t, ~ parses json_tab json_root (quoted_text (lit "\u+041")) (Ok t)) /\ exists e, parse_json checks conv 20 (quoted_text (lit "\u+041")) = Err e.
Proof.
  split; [| split].
  - apply reads_text, val_string. constructor. apply (chars_unicode (lalrpop conv) (lit "+041") 65%N [] []); [| constructor].
    apply (loose_one (lit "+041") 65%N); [| unfold surrogate, high_surrogate, low_surrogate; lia].
    apply (unit_plus (lit "041")); [reflexivity |]. repeat (constructor; [unfold hex_digit; cbn; lia |]). constructor.
  - destruct (GenSem.parse_str json_tab 200 json_root (quoted_text (lit "\u+041"))) as [| x | |] eqn:E; [vm_compute in E; discriminate E | exact (json_rejects _ _ _ E) | vm_compute in E; discriminate E ..].
  - eexists. destruct checks; reflexivity.
Qed.
(** other white space is read, and a half of a pair is a panic. *)
Theorem C88_space_refuted {num} (conv : rstr -> option num) : json_lalr_reads conv (160%N :: lit "null") (Some JNull) /\ forall t, ~ parses json_tab json_root (160%N :: lit "null") (Ok t).
Proof.
  split.
  - exists [jword "null"]. split; [| constructor]. apply jlex_white; [reflexivity |]. rewrite <- (app_nil_r (lit "null")). apply jlex_word; [cbn; auto | constructor].
  - destruct (GenSem.parse_str json_tab 200 json_root (160%N :: lit "null")) as [| x | |] eqn:E; [vm_compute in E; discriminate E | exact (json_rejects _ _ _ E) | vm_compute in E; discriminate E ..].
Qed.
Theorem C88_panics_refuted {num} (conv : rstr -> option num) : json_lalr_reads conv (quoted_text (lit "\ud800")) None /\ json_lalr_reads conv (quoted_text [10%N]) None.
Proof.
  assert (R : forall b, str_body b -> unescape b = None -> json_lalr_reads conv (quoted_text b) None).
  { intros b Hb E. assert (Hs : str_re (quoted_text b)) by (exists b; auto). exists [TStr (quoted_text b)]. split.
    - rewrite <- (app_nil_r (quoted_text b)) at 1. constructor; [now constructor | now apply longest_str | constructor].
    - pose proof (jv_str conv (quoted_text b)) as X. unfold quoted_text in X at 2. now rewrite str_value_body, E in X. }
  split; apply R; try reflexivity.
  - apply body_escape; [discriminate |]. repeat (apply body_plain; [discriminate | discriminate |]). constructor.
  - apply body_plain; [discriminate | discriminate | constructor].
Qed.
(** The sample of C70. *)
Example C88_ex : exists v, json_lalr_reads (fun w => Some w) sample (Some v).
Proof.
  destruct (GenSem.parse_str json_tab 400 json_root sample) as [t | | |] eqn:E; [| vm_compute in E; discriminate E ..].
  destruct (of_ast (fun w => Some w) t) as [v |] eqn:Ev; [| vm_compute in E; injection E as <-; vm_compute in Ev; discriminate Ev].
  exists v. exact (C88_generated _ _ _ _ (json_run _ _ _ E) Ev).
Qed.
Print Assumptions C88_complete.
Print Assumptions C88_sound.
Print Assumptions C88_language.
Print Assumptions C88_one_value.
Print Assumptions C88_generated.
Print Assumptions C88_hand.
Print Assumptions C88_round_trip.
Print Assumptions C88_point_refuted.
Print Assumptions C88_plus_refuted.
Print Assumptions C88_space_refuted.
Print Assumptions C88_panics_refuted.
