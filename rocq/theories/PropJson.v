(** * PropJson: C56-C59, the hand-written JSON reader and the printer. *)
From Coq Require Import String ZArith.
From Verif Require Import JsonPrint.
From Coq Require Import List Lia.
Open Scope list_scope.

(** ** C56: [\u] escapes *)
(** Whatever the four digits, the number read is 0. *)
Theorem C56_always_zero (checks : bool) (u r : rstr) : hex4 u ->
  exists st, parse_u16 checks (iw_new (u ++ r)) = (Ok 0%N, st) /\ remaining st = r.
Proof.
  intros Hu. destruct (parse_u16_cases checks (iw_new (u ++ r))) as [(u' & r' & Hu' & R' & (st' & E & R2)) | [H _]]; [| now elim (H u r Hu)].
  exists st'. split; [exact E |]. rewrite R2. cbn in R'. apply (f_equal (skipn 4)) in R'. destruct Hu as [Hl _], Hu' as [Hl' _].
  rewrite <- Hl in R' at 1. rewrite <- Hl' in R'. rewrite !skipn_app, !skipn_all, !Nat.sub_diag in R'. cbn [skipn app] in R'. congruence.
Qed.
(** Anything else is an error, never a panic. *)
Theorem C56_otherwise_error (checks : bool) (s : rstr) : (forall u r, hex4 u -> s <> u ++ r) ->
  exists e st, parse_u16 checks (iw_new s) = (Err e, st).
Proof.
  intros H. destruct (parse_u16_cases checks (iw_new s)) as [(u & r & Hu & R & _) | [_ H2]]; [now elim (H u r Hu) | exact H2].
Qed.
(** So the value of the digits is lost: [parse_u16] does not return it. *)
Theorem C56_value_refuted (checks : bool) :
  exists u st, hex4 u /\ parse_u16 checks (iw_new u) = (Ok 0%N, st) /\ hex_number u = 65%N.
Proof.
  exists (lit "0041"). eexists. split; [split; [reflexivity | repeat constructor; unfold hex_digit; cbn; lia] |]. split; [destruct checks; reflexivity | reflexivity].
Qed.
(** In a string, every [\uXXXX] is the character NUL, and a second escape is
    never looked for. *)
Theorem C56_string (checks : bool) {num} (conv : rstr -> option num) (u : rstr) : hex4 u ->
  parse_json checks conv 20 (quote :: lit "\u" ++ u ++ [quote]) = Ok (JString [0%N]).
Proof.
  intros Hu. destruct Hu as [Hl Hu]. apply parse_json_ok.
  - cbn. rewrite app_length, Hl. cbn. lia.
  - constructor; [discriminate |]. constructor; [discriminate |]. constructor; [discriminate |]. apply Forall_app. split; [| repeat constructor; discriminate].
    eapply Forall_impl; [| exact Hu]. intros c Hc. unfold hex_digit, max_char in *. lia.
  - apply padded_of_val, val_string. change (lit "\u" ++ u ++ [quote]) with ((lit "\u" ++ u) ++ [quote]). constructor.
    cbn. rewrite <- (app_nil_r u). apply (chars_unicode (hand conv) u 0%N [] []); [split; [split; assumption | reflexivity] | constructor].
Qed.
Example C56_ex : parse_json true (fun s => Some s) 20 (quote :: lit "\u0041" ++ [quote]) = Ok (JString [0%N]).
Proof. reflexivity. Qed.

(** ** C57: surrogate pairs *)
Lemma is_low_iff n : is_low n = true <-> low_surrogate n.
Proof. unfold is_low, low_surrogate. now rewrite in_range_iff. Qed.
Lemma is_high_iff n : is_high n = true <-> high_surrogate n.
Proof. unfold is_high, high_surrogate. now rewrite in_range_iff. Qed.
(** It succeeds exactly on a high and a low surrogate, in either order. *)
Theorem C57_decode_pair (one other n : N) :
  decode_pair one other = Some n <->
  (high_surrogate one /\ low_surrogate other /\ n = pair_value one other) \/
  (low_surrogate one /\ high_surrogate other /\ n = pair_value other one).
Proof.
  unfold decode_pair, pair_value. pose proof (is_low_iff one) as L1. pose proof (is_low_iff other) as L2. pose proof (is_high_iff one) as H1. pose proof (is_high_iff other) as H2.
  unfold low_surrogate, high_surrogate in *. destruct (is_low one), (is_low other), (is_high one), (is_high other); split; try discriminate; try (intros [= <-]); try (left; lia); try (right; lia); try lia;
    intros [(A & B & ->) | (A & B & ->)]; try reflexivity; exfalso; intuition (try discriminate); lia.
Qed.
(** Together the pairs encode each code point above 0xFFFF exactly once. *)
Theorem C57_round_trip (cp : N) : (65536 <= cp <= max_char)%N ->
  let high := ((cp - 65536) / 1024 + 55296)%N in
  let low := ((cp - 65536) mod 1024 + 56320)%N in
  decode_pair high low = Some cp /\ decode_pair low high = Some cp.
Proof.
  unfold max_char. intros H.
  assert (Hm : ((cp - 65536) mod 1024 < 1024)%N) by (apply N.mod_lt; discriminate).
  assert (Hd : ((cp - 65536) / 1024 < 1024)%N) by (apply N.div_lt_upper_bound; [discriminate | lia]).
  pose proof (N.div_mod (cp - 65536) 1024 ltac:(discriminate)) as E0. revert Hm Hd E0.
  generalize ((cp - 65536) / 1024)%N as a. generalize ((cp - 65536) mod 1024)%N as b. intros b a Hm Hd E0. cbn zeta.
  assert (E : pair_value (a + 55296) (b + 56320) = cp) by (unfold pair_value; rewrite !N.add_sub; lia).
  assert (Hh : high_surrogate (a + 55296)) by (unfold high_surrogate; lia). assert (Hl : low_surrogate (b + 56320)) by (unfold low_surrogate; lia).
  rewrite !C57_decode_pair. auto 8.
Qed.
Theorem C57_range (high low : N) : high_surrogate high -> low_surrogate low -> (65536 <= pair_value high low <= max_char)%N.
Proof. unfold high_surrogate, low_surrogate, pair_value, max_char. lia. Qed.
Theorem C57_injective (h l h' l' : N) : high_surrogate h -> low_surrogate l -> high_surrogate h' -> low_surrogate l' ->
  pair_value h l = pair_value h' l' -> h = h' /\ l = l'.
Proof. unfold high_surrogate, low_surrogate, pair_value. lia. Qed.
Example C57_ex : decode_pair 55357 56832 = Some 128512%N /\ decode_pair 56832 55357 = Some 128512%N /\ decode_pair 55357 65 = None /\ decode_pair 65 66 = None.
Proof. repeat split. Qed.

(** ** C59: what the reader accepts *)
Section C59.
  Variable checks : bool.
  Context {num : Type}.
  Variable conv : rstr -> option num.
  Variables (fuel : nat) (s : rstr).
  Hypothesis Hfuel : length s < fuel.
  Hypothesis Hs : Forall (fun c => (c <= max_char)%N) s.
  (** It returns a value exactly for the texts of that value in its dialect. *)
  Theorem C59_language v : parse_json checks conv fuel s = Ok v <-> Padded (hand conv) s v.
  Proof. now apply parse_json_ok. Qed.
  (** It panics exactly when it meets, where a value or a key is due, a number
      [str::parse] rejects, or a string with a control character or a bad
      escape in it. *)
  Theorem C59_panics : parse_json checks conv fuel s = Panic <-> Doomed (hand conv) (unreadable conv) s.
  Proof. now apply parse_json_panic. Qed.
  (** It always ends. *)
  Theorem C59_total : parse_json checks conv fuel s <> OutOfFuel.
  Proof. now apply parse_json_total. Qed.
  (** A text has at most one value. *)
  Corollary C59_unambiguous v v' : Padded (hand conv) s v -> Padded (hand conv) s v' -> v = v'.
  Proof. intros H1 H2. apply C59_language in H1, H2. congruence. Qed.
  Corollary C59_no_value_panics v : Padded (hand conv) s v -> ~ Doomed (hand conv) (unreadable conv) s.
  Proof. intros H1 H2. apply C59_language in H1. apply C59_panics in H2. congruence. Qed.
End C59.
(** White space between the brackets of an empty array or object is refused,
    although JSON allows it. *)
Lemma empty_ws (checks : bool) {num} (conv : rstr -> option num) w n st r : ws w -> remaining st = w ++ chr "]" :: r -> exists e, fst (take_value checks conv (S n) st) = Err e.
Proof.
  intros Hw R. cbn [take_value]. assert (R0 : remaining (skip_ws st) = chr "]" :: r) by (apply (r_skip_ok st w _ R Hw); now apply stop_cons).
  destruct (r_peek (skip_ws st)) as (st1 & -> & R1). rewrite R0 in *. cbn [hd_error].
  change (exists e, fst (then_ (Err (BadBranch (iw_pos st1) (chr "]") FIRST), st1) (fun v st2 => (Ok v, skip_ws st2))) = @Err (value num) _ e). cbn. eauto.
Qed.
Lemma empty_ws_member (checks : bool) {num} (conv : rstr -> option num) w n st r : ws w -> remaining st = w ++ chr "}" :: r -> exists e, fst (take_member checks (take_value checks conv n) n st) = Err e.
Proof.
  intros Hw R. unfold take_member, parse_str. assert (R0 : remaining (skip_ws st) = chr "}" :: r) by (apply (r_skip_ok st w _ R Hw); now apply stop_cons).
  destruct (r_consume [34%N] (skip_ws st)) as [(r' & st' & A & _) | [_ (e & st' & ->)]]; [repeat constructor | rewrite R0 in A; discriminate A | cbn; eauto].
Qed.
Theorem C59_empty_array_refuted (checks : bool) {num} (conv : rstr -> option num) fuel w : ws w -> w <> [] -> length w + 2 < fuel ->
  exists e, parse_json checks conv fuel (lit "[" ++ w ++ lit "]") = Err e.
Proof.
  intros Hw Hn Hf. unfold parse_json, parse_with. destruct w as [| c w]; [congruence |]. pose proof Hw as Hw0. apply Forall_cons_iff in Hw as [Hc Hw].
  destruct fuel as [| [| n]]; [lia | lia |].
  enough (E : exists e, fst (take_value checks conv (S (S n)) (iw_new (lit "[" ++ (c :: w) ++ lit "]"))) = Err e).
  { destruct E as [e E]. destruct (take_value checks conv (S (S n)) (iw_new (lit "[" ++ (c :: w) ++ lit "]"))) as [y st']. cbn [fst] in E. subst y. eauto. }
  set (m := S n). cbn [take_value]. assert (R0 : remaining (skip_ws (iw_new (lit "[" ++ (c :: w) ++ lit "]"))) = lit "[" ++ (c :: w) ++ lit "]").
  { apply (r_skip_ok _ []); [reflexivity | constructor |]. now apply stop_cons. }
  destruct (r_peek (skip_ws (iw_new (lit "[" ++ (c :: w) ++ lit "]")))) as (st1 & -> & R1). rewrite R0 in *. cbn [app hd_error].
  change (exists e, fst (then_ (then_ (consume_str (lit "[") st1) (fun _ st2 =>
            then_ (iter_collect (take_value checks conv m) (chr ",") (chr "]") (lit ",]") FIRST_WS m st2) (fun l st3 =>
            then_ (consume_str (lit "]") st3) (fun _ st4 => (Ok (JArray l), st4))))) (fun v st2 => (Ok v, skip_ws st2))) = @Err (value num) _ e).
  destruct (r_consume_ok (lit "[") st1 ((c :: w) ++ lit "]")) as (st2 & -> & R2); [repeat constructor | exact R1 |]. unfold then_ at 2. cbn [fst snd].
  assert (E : exists e, fst (iter_collect (take_value checks conv m) (chr ",") (chr "]") (lit ",]") FIRST_WS m st2) = Err e).
  { unfold m. cbn [iter_collect]. fold m. unfold iter_next. destruct (r_peek st2) as (st3 & -> & R3). rewrite R2 in *. cbn [app hd_error].
    destruct (N.eqb_spec c (chr "]")) as [-> | _]; [cbn in Hc; intuition discriminate |].
    destruct (empty_ws checks conv (c :: w) n st3 [] Hw0 R3) as [e E]. fold m in E. destruct (take_value checks conv m st3) as [y st4]. cbn [fst] in E. subst y.
    destruct (iw_peek st4) as [[d |] st5]; [| cbn; eauto]. destruct (N.eqb d (chr ",")).
    - cbn zeta. destruct (iw_peek (snd (iw_next st5))) as [[d2 |] st6]; [destruct (mem_char d2 FIRST_WS) |]; cbn; eauto.
    - destruct (N.eqb d (chr "]")); cbn; eauto. }
  destruct E as [e E]. destruct (iter_collect (take_value checks conv m) (chr ",") (chr "]") (lit ",]") FIRST_WS m st2) as [y st3]. cbn [fst] in E. subst y. cbn. eauto.
Qed.
Theorem C59_empty_object_refuted (checks : bool) {num} (conv : rstr -> option num) fuel w : ws w -> w <> [] -> length w + 2 < fuel ->
  exists e, parse_json checks conv fuel (lit "{" ++ w ++ lit "}") = Err e.
Proof.
  intros Hw Hn Hf. unfold parse_json, parse_with. destruct w as [| c w]; [congruence |]. pose proof Hw as Hw0. apply Forall_cons_iff in Hw as [Hc Hw].
  destruct fuel as [| [| n]]; [lia | lia |].
  enough (E : exists e, fst (take_value checks conv (S (S n)) (iw_new (lit "{" ++ (c :: w) ++ lit "}"))) = Err e).
  { destruct E as [e E]. destruct (take_value checks conv (S (S n)) (iw_new (lit "{" ++ (c :: w) ++ lit "}"))) as [y st']. cbn [fst] in E. subst y. eauto. }
  set (m := S n). cbn [take_value]. assert (R0 : remaining (skip_ws (iw_new (lit "{" ++ (c :: w) ++ lit "}"))) = lit "{" ++ (c :: w) ++ lit "}").
  { apply (r_skip_ok _ []); [reflexivity | constructor |]. now apply stop_cons. }
  destruct (r_peek (skip_ws (iw_new (lit "{" ++ (c :: w) ++ lit "}")))) as (st1 & -> & R1). rewrite R0 in *. cbn [app hd_error].
  change (exists e, fst (then_ (then_ (consume_str (lit "{") st1) (fun _ st2 =>
            then_ (iter_collect (take_member checks (take_value checks conv m) m) (chr ",") (chr "}") (lit ",}") ([34%N] ++ WS) m st2) (fun l st3 =>
            then_ (consume_str (lit "}") st3) (fun _ st4 => (Ok (JObject l), st4))))) (fun v st2 => (Ok v, skip_ws st2))) = @Err (value num) _ e).
  destruct (r_consume_ok (lit "{") st1 ((c :: w) ++ lit "}")) as (st2 & -> & R2); [repeat constructor | exact R1 |]. unfold then_ at 2. cbn [fst snd].
  assert (E : exists e, fst (iter_collect (take_member checks (take_value checks conv m) m) (chr ",") (chr "}") (lit ",}") ([34%N] ++ WS) m st2) = Err e).
  { unfold m at 3. cbn [iter_collect]. unfold iter_next. destruct (r_peek st2) as (st3 & -> & R3). rewrite R2 in *. cbn [app hd_error].
    destruct (N.eqb_spec c (chr "}")) as [-> | _]; [cbn in Hc; intuition discriminate |].
    destruct (empty_ws_member checks conv (c :: w) m st3 [] Hw0 R3) as [e E]. destruct (take_member checks (take_value checks conv m) m st3) as [y st4]. cbn [fst] in E. subst y.
    destruct (iw_peek st4) as [[d |] st5]; [| cbn; eauto]. destruct (N.eqb d (chr ",")).
    - cbn zeta. destruct (iw_peek (snd (iw_next st5))) as [[d2 |] st6]; [destruct (mem_char d2 (34%N :: WS)) |]; cbn; eauto.
    - destruct (N.eqb d (chr "}")); cbn; eauto. }
  destruct E as [e E]. destruct (iter_collect (take_member checks (take_value checks conv m) m) (chr ",") (chr "}") (lit ",}") ([34%N] ++ WS) m st2) as [y st3]. cbn [fst] in E. subst y. cbn. eauto.
Qed.
(** A text with everything in it, one that panics, and one that is refused. *)
Definition q (s : string) : rstr := quote :: lit s ++ [quote].
Definition toy_conv (s : rstr) : option rstr := if mem_char (chr "+") s then None else Some s.
Example C59_ex : parse_json true toy_conv 200 (lit " { " ++ q "a\n" ++ lit " : [null, true ,-1.5e3,[],{}], " ++ q "b" ++ lit ":false} ")
  = Ok (JObject [(lit "a" ++ [10%N], JArray [JNull; JBool true; JNumber (lit "-1.5e3"); JArray []; JObject []]); (lit "b", JBool false)]).
Proof. reflexivity. Qed.
Example C59_ex_panic : parse_json true toy_conv 200 (lit "[1,2+3]") = Panic /\ parse_json true toy_conv 200 (lit "[" ++ [quote] ++ lit "a\xb") = Panic
  /\ parse_json true toy_conv 200 (lit "[1,]") = Err (PTake (BadBranch (LC 1 3) (chr "]") FIRST_WS)).
Proof. repeat split. Qed.
Example C59_ex_doomed : Doomed (hand toy_conv) (unreadable toy_conv) (lit "[1,2+3]").
Proof.
  apply (doomed_elements _ _ [] (lit "1") [JNumber (lit "1")] (lit "2+3]")); [constructor | |].
  - apply elements_one. apply (padded _ [] (lit "1") []); [constructor | | constructor]. apply val_number. split; [| reflexivity]. constructor; [left; unfold digit; cbn; lia | constructor].
  - apply (doomed_number _ _ [] (lit "2+3]")); [constructor |]. apply (unreadable_ toy_conv (lit "2+3") (lit "]")).
    + constructor; [left; unfold digit; cbn; lia |]. constructor; [right; cbn; auto |]. constructor; [left; unfold digit; cbn; lia | constructor].
    + reflexivity.
    + intros c [= <-] [H | H]; [unfold digit in H; cbn in H; lia |]. cbn in H. intuition discriminate.
Qed.

(** ** C58: printing *)
Section C58.
  Variable checks : bool.
  Context {num : Type}.
  Variable show : num -> rstr.
  Definition is_text (s : rstr) : Prop := Forall (fun c => (c <= max_char)%N) s.
  (** Printing panics exactly when some string or key contains a control
      character without a short escape; with and without overflow checks. *)
  Theorem C58_panics v : everywhere is_text (fun _ => True) (fun _ => True) v ->
    (display checks show v = None <-> ~ everywhere (fun s => Forall (fun c => ~ unprintable c) s) (fun _ => True) (fun _ => True) v).
  Proof.
    intros H. rewrite <- (display_iff checks (fun _ => None) show v H). destruct (display checks show v); split; try discriminate; try tauto. intros Hn. exfalso. apply Hn. discriminate.
  Qed.
  (** What is printed is read back as the same value, if the numbers in it are:
      their texts look like numbers and [str::parse] takes them back. *)
  Variable conv : rstr -> option num.
  Theorem C58_round_trip v t fuel :
    everywhere is_text (fun n => number_run_text (show n) /\ conv (show n) = Some n) (@NoDup rstr) v ->
    display checks show v = Some t -> length t < fuel ->
    exists v', parse_json checks conv fuel t = Ok v' /\ same v v'.
  Proof.
    intros Hv Hd Hf.
    assert (Hc : everywhere (fun s => Forall (fun c => ~ unprintable c) s) (fun _ => True) (fun _ => True) v).
    { assert (Hw : everywhere is_text (fun _ => True) (fun _ => True) v).
      { clear -Hv. induction v as [| b | n | s | l IH | l IH] using value_ind'; inversion Hv; subst; constructor; auto.
        - rewrite Forall_forall in *. intros x Hx. apply (IH x Hx). auto.
        - rewrite Forall_forall in *. intros x Hx. match goal with Hx2 : forall e, In e l -> is_text (fst e) /\ _ |- _ => split; [now apply Hx2 | apply (IH x Hx); now apply Hx2] end. }
      apply (display_iff checks conv show v Hw). congruence. }
    assert (Hfine : fine_value conv show v).
    { clear -Hv Hc. unfold fine_value, printable. induction v as [| b | n | s | l IH | l IH] using value_ind'; inversion Hv; inversion Hc; subst; constructor; auto.
      - rewrite Forall_forall in *. intros x Hx. apply (IH x Hx); auto.
      - rewrite Forall_forall in *. intros x Hx. match goal with Hx2 : forall e, In e l -> is_text (fst e) /\ _, Hx3 : forall e, In e l -> Forall _ (fst e) /\ _ |- _ => split; [split; [now apply Hx2 | now apply Hx3] | apply (IH x Hx); [now apply Hx2 | now apply Hx3]] end. }
    destruct (display_val checks conv show v Hfine) as (t' & E & Hval). rewrite E in Hd. injection Hd as <-.
    apply padded_of_val in Hval. exists (rotate v). split; [apply parse_json_ok; [exact Hf | now apply (texts_valid conv) in Hval | exact Hval] |]. exact (same_rotate conv _ _ _ Hv).
  Qed.
End C58.
(** A string by itself. *)
Theorem C58_string (checks : bool) {num} (show : num -> rstr) (conv : rstr -> option num) (s t : rstr) (fuel : nat) :
  is_text s -> display checks show (JString s) = Some t -> length t < fuel -> parse_json checks conv fuel t = Ok (JString s).
Proof.
  intros Hs Hd Hf. cbn [display] in Hd. destruct (unprintable_text s) as [E | E]; [rewrite write_str_none in Hd by exact E; discriminate |].
  destruct (write_str_ok checks conv s Hs E) as (t' & E' & Hq). rewrite E' in Hd. injection Hd as <-. apply parse_json_ok; [exact Hf | now apply (quoted_valid conv) in Hq |]. apply padded_of_val. now constructor.
Qed.
(** Printing can panic: the original claim is false. *)
Theorem C58_never_panics_refuted (checks : bool) {num} (show : num -> rstr) : display checks show (JString [0%N]) = None.
Proof. destruct checks; reflexivity. Qed.
(** And it panics on what the reader returns for a [\u] escape. *)
Theorem C58_unicode_refuted (checks : bool) {num} (show : num -> rstr) (conv : rstr -> option num) :
  exists v, parse_json checks conv 20 (quote :: lit "\u0041" ++ [quote]) = Ok v /\ display checks show v = None.
Proof. exists (JString [0%N]). split; [destruct checks; reflexivity | destruct checks; reflexivity]. Qed.
Example C58_ex : display true (fun s => s) (JObject [(lit "k", JArray [JNumber (lit "1"); JString [34; 10]%N]); (lit "l", JNull)])
  = Some (lit "{" ++ q "l" ++ lit " : null, " ++ q "k" ++ lit " : [1, " ++ [quote] ++ lit "\" ++ [quote] ++ lit "\n" ++ [quote] ++ lit "]}").
Proof. reflexivity. Qed.
Example C58_ex_hyp : everywhere is_text (fun n => number_run_text n /\ Some n = Some n) (@NoDup rstr)
  (JObject [(lit "k", JArray [JNumber (lit "1"); JString [34; 10]%N]); (lit "l", JNull)]).
Proof.
  constructor.
  - constructor; [cbn; intuition discriminate | constructor; [intros [] | constructor]].
  - constructor; [split; [repeat constructor; discriminate |] | constructor; [split; [repeat constructor; discriminate | constructor] | constructor]].
    constructor. constructor; [constructor; split; [constructor; [left; unfold digit; cbn; lia | constructor] | reflexivity] | constructor; [constructor; repeat constructor; discriminate | constructor]].
Qed.

Print Assumptions C56_always_zero.
Print Assumptions C56_otherwise_error.
Print Assumptions C56_value_refuted.
Print Assumptions C56_string.
Print Assumptions C57_decode_pair.
Print Assumptions C57_round_trip.
Print Assumptions C57_range.
Print Assumptions C57_injective.
Print Assumptions C58_panics.
Print Assumptions C58_round_trip.
Print Assumptions C58_string.
Print Assumptions C58_never_panics_refuted.
Print Assumptions C58_unicode_refuted.
Print Assumptions C59_language.
Print Assumptions C59_panics.
Print Assumptions C59_total.
Print Assumptions C59_unambiguous.
Print Assumptions C59_no_value_panics.
Print Assumptions C59_empty_array_refuted.
Print Assumptions C59_empty_object_refuted.
