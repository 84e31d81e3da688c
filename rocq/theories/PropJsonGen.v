(** * PropJsonGen: the generated JSON parser of chomp-bench (C69 to C72).

    Vocabulary: [json_chomp] (JsonGen: the compiler run on the grammar of
    chomp-bench/src/json/nibble.rs), [parses] (PropGen: what the generated
    parser returns), [of_ast] (JsonGen: [From<Ast> for Value]), [Padded] with
    the dialects [rfc8259], [generated], [hand], [common] (SpecJson: texts and
    their values), [parse_json] (Json: the hand-written parser), [display]
    (Json: the printer). *)
From Coq Require Import String ZArith.
From Verif Require Import EmitFacts JsonGenValue PropGen PropMain.
From Coq Require Import List Lia.
Open Scope list_scope.

Lemma json_compiled : exists out, json_chomp = Ok (json_tab, json_root, out).
Proof. eexists. vm_compute. reflexivity. Qed.
Lemma json_compiles : exists e r, compiles heck e r json_tab json_root.
Proof. destruct json_compiled as [out E]. destruct (chomp_inv _ _ _ _ _ _ _ E) as (s & e & v & r & _ & _ & _ & _ & Hc). eauto. Qed.
Lemma json_parses s t : parses json_tab json_root s (Ok t) <-> derives json_tab json_root t /\ yield t = s.
Proof. destruct json_compiles as (e & r & H). exact (parse_ok_iff _ _ _ _ _ H s t). Qed.
Lemma json_unique t t' : derives json_tab json_root t -> derives json_tab json_root t' -> yield t = yield t' -> t = t'.
Proof.
  intros H H' E. assert (P : parses json_tab json_root (yield t) (Ok t)) by (apply json_parses; auto). assert (P' : parses json_tab json_root (yield t) (Ok t')) by (apply json_parses; auto).
  pose proof (parses_fun _ _ _ _ _ P P') as X. now injection X.
Qed.
Lemma json_run fuel s t : GenSem.parse_str json_tab fuel json_root s = Ok t -> parses json_tab json_root s (Ok t).
Proof. intros E. rewrite <- E. apply parses_run. rewrite E. discriminate. Qed.

(** ** The two conversions *)
Lemma rfc_sound t : derives json_tab json_root t -> exists v, Padded rfc8259 (yield t) v.
Proof.
  intros H. destruct (of_ast_with (fun t => Some (yield t)) plain_string t) as [v |] eqn:E.
  - exists v. apply (ast_sound (fun t => Some (yield t)) plain_string rfc8259); [| | auto | exact H | exact E].
    + intros u n Hu [= <-]. split; [apply number_iff; eauto | reflexivity].
    + intros u s Hu Es. apply (quoted_sound rfc8259 (fun x y => plain_chars x = y)); [intros l s' Hl <-; now apply plain_chars_sound | exact Hu |].
      eapply cat3_inv in Hu as (x & y & z & -> & _); [| reflexivity]. exists x, z, y. split; [reflexivity |]. now injection Es.
  - exfalso. revert E. apply ast_total; [discriminate | | exact H]. intros u Hu. eapply cat3_inv in Hu as (x & y & z & -> & _); [| reflexivity]. discriminate.
Qed.
Lemma rfc_complete w v : Padded rfc8259 w v -> exists t, derives json_tab json_root t /\ yield t = w.
Proof.
  intros H. apply (ast_complete (fun t => Some (yield t)) plain_string rfc8259) in H as (t & Ht & E & _); [eauto | | | auto].
  - intros u n [Hu ->]. apply number_iff in Hu as (x & Hx & <-). eauto.
  - intros u s [w' s' Hc]. apply plain_chars_complete in Hc as (l & Hl & <- & <-). destruct (quoted_tree l Hl) as [Hq Eq]. eexists. split; [exact Hq |]. split; [exact Eq | reflexivity].
Qed.
Section Gen.
  Context {num : Type}.
  Variable conv : rstr -> option num.
  Lemma gen_sound t v : derives json_tab json_root t -> of_ast conv t = Some v -> Padded (generated conv) (yield t) v.
  Proof.
    intros H E. apply (ast_sound (number_of conv) string_of (generated conv)); [| | auto | exact H | exact E].
    - intros u n Hu En. split; [apply number_iff; eauto | exact En].
    - intros u s Hu Es. apply (quoted_sound (generated conv) (fun x y => collect_chars x = Some y)); [intros l s' Hl El; now apply collect_sound | exact Hu |].
      eapply cat3_inv in Hu as (x & y & z & -> & _); [| reflexivity]. exists x, z, y. split; [reflexivity | exact Es].
  Qed.
  Lemma gen_complete w v : Padded (generated conv) w v -> exists t, derives json_tab json_root t /\ yield t = w /\ of_ast conv t = Some v.
  Proof.
    apply (ast_complete (number_of conv) string_of (generated conv)).
    - intros u n [Hu E]. apply number_iff in Hu as (x & Hx & <-). exists x. auto.
    - intros u s [w' s' Hc]. apply (collect_complete conv) in Hc as (l & Hl & <- & E). destruct (quoted_tree l Hl) as [Hq Eq]. eexists. split; [exact Hq |]. split; [exact Eq | exact E].
    - auto.
  Qed.
End Gen.

(** ** C69: the language of the generated parser *)
(** The compiler accepts the grammar, and the generated parser accepts exactly
    JSON as RFC 8259 has it, in printable ASCII. *)
Theorem C69_language : exists tab root out, json_chomp = Ok (tab, root, out) /\ forall s,
  (exists t, parses tab root s (Ok t)) <-> exists v, Padded rfc8259 s v.
Proof.
  destruct json_compiled as [out E]. exists json_tab, json_root, out. split; [exact E |]. clear E. intros s. split.
  - intros [t Ht]. apply json_parses in Ht as [Hd <-]. now apply rfc_sound.
  - intros [v Hv]. apply rfc_complete in Hv as (t & Ht & E'). exists t. now apply json_parses.
Qed.
(** It always returns, and never panics. *)
Theorem C69_returns s : (exists t, parses json_tab json_root s (Ok t)) \/ (exists x, parses json_tab json_root s (Err x)).
Proof.
  destruct json_compiled as [out E].
  destruct (chomp_inv _ _ _ _ _ _ _ E) as (st & e & v & r & Hp & Hc & Hr & Ht & Hcomp). apply (C25_ascii_no_panic _ _ _ _ _ s Hcomp).
  assert (A : forallb (forallb (fun c => N.ltb c 128)) (t_lits r) = true).
  { assert (B : (match parse_program (tokens_of json_source) with Some st => match convert_program (fun _ _ => None) st with Ok e => match reduce 500 e with Ok v => match typecheck v with
      Ok r => forallb (forallb (fun c => N.ltb c 128)) (t_lits r) | _ => false end | _ => false end | _ => false end | None => false end) = true) by (vm_compute; reflexivity).
    rewrite Hp, Hc, Hr, Ht in B. exact B. }
  rewrite forallb_forall in A. intros w Hw. specialize (A w Hw). rewrite forallb_forall in A. unfold ascii. rewrite ?Forall_forall. intros c Hc'. apply N.ltb_lt, A, Hc'.
Qed.

(** ** C70: the value of the parse tree *)
Section C70.
  Context {num : Type}.
  (** [str::parse::<f64>] *)
  Variable conv : rstr -> option num.
  (** Parsing and converting gives the value of the text. *)
  Theorem C70_value s v : (exists t, parses json_tab json_root s (Ok t) /\ of_ast conv t = Some v) <-> Padded (generated conv) s v.
  Proof.
    split.
    - intros (t & Ht & E). apply json_parses in Ht as [Hd <-]. now apply gen_sound.
    - intros H. apply gen_complete in H as (t & Ht & E & Ev). exists t. split; [now apply json_parses | exact Ev].
  Qed.
  (** The conversion panics exactly when an accepted text has no value. *)
  Theorem C70_panics s t : parses json_tab json_root s (Ok t) -> (of_ast conv t = None <-> forall v, ~ Padded (generated conv) s v).
  Proof.
    intros Ht. apply json_parses in Ht as [Hd <-]. split.
    - intros E v Hv. apply gen_complete in Hv as (t' & Ht' & Ey & Ev). rewrite (json_unique t' t Ht' Hd Ey) in Ev. congruence.
    - intros H. destruct (of_ast conv t) as [v |] eqn:E; [| reflexivity]. now elim (H v); apply gen_sound.
  Qed.
  (** A text has at most one value. *)
  Corollary C70_unambiguous s v v' : Padded (generated conv) s v -> Padded (generated conv) s v' -> v = v'.
  Proof.
    intros H H'. apply gen_complete in H as (t & Ht & E & Ev), H' as (t' & Ht' & E' & Ev'). subst s. rewrite (json_unique t' t Ht' Ht E') in Ev'. congruence.
  Qed.
End C70.

(** Every accepted text has a value if the numbers can be converted and no
    escape stands for half of a pair. *)
Definition no_halves : dialect rstr :=
  {| plain := printable_ascii; unicode u c := hex4 u /\ ~ surrogate (hex_number u) /\ c = 0%N; number_is w n := JsonNumber w /\ n = w; inside_empty := ws |}.
Section Change.
  Context {num num' : Type}.
  Variables (D : dialect num) (D' : dialect num').
  Hypothesis Hn : forall w n, number_is D w n -> exists n', number_is D' w n'.
  Hypothesis Hq : forall w s, Quoted D w s -> exists s', Quoted D' w s'.
  Hypothesis He : forall w, inside_empty D w -> inside_empty D' w.
  Lemma texts_change :
    (forall w v, Val D w v -> exists v', Val D' w v') /\ (forall w v, Padded D w v -> exists v', Padded D' w v') /\ (forall w l, Elements D w l -> exists l', Elements D' w l') /\
    (forall w m, Member D w m -> exists m', Member D' w m') /\ (forall w l, Members D w l -> exists l', Members D' w l').
  Proof.
    apply (texts_min num D (fun w _ => exists v', Val D' w v') (fun w _ => exists v', Padded D' w v') (fun w _ => exists l', Elements D' w l') (fun w _ => exists m', Member D' w m') (fun w _ => exists l', Members D' w l'));
      intros; repeat match goal with H : exists _, _ |- _ => destruct H | H : number_is D _ _ |- _ => apply Hn in H as [? ?] | H : Quoted D _ _ |- _ => apply Hq in H as [? ?] | H : inside_empty D _ |- _ => apply He in H end;
      try (now eexists; constructor; eauto); try (now eexists; apply val_array0; eauto); try (now eexists; apply val_object0; eauto);
      try (now eexists; apply val_array; eauto); try (now eexists; apply val_object; eauto).
  Qed.
End Change.
Section Same.
  Context {num : Type}.
  Variables (D D' : dialect num).
  Hypothesis Hn : forall w n, number_is D w n -> number_is D' w n.
  Hypothesis Hq : forall w s, Quoted D w s -> Quoted D' w s.
  Hypothesis He : forall w, inside_empty D w -> inside_empty D' w.
  Lemma texts_same :
    (forall w v, Val D w v -> Val D' w v) /\ (forall w v, Padded D w v -> Padded D' w v) /\ (forall w l, Elements D w l -> Elements D' w l) /\
    (forall w m, Member D w m -> Member D' w m) /\ (forall w l, Members D w l -> Members D' w l).
  Proof.
    apply (texts_min num D (Val D') (Padded D') (Elements D') (Member D') (Members D')); intros;
      try (now apply val_array0; auto); try (now apply val_object0; auto); try (now constructor; auto).
  Qed.
End Same.
Theorem C70_no_panic {num} (conv : rstr -> option num) s x : (forall w, JsonNumber w -> conv w <> None) -> Padded no_halves s x ->
  exists t v, parses json_tab json_root s (Ok t) /\ of_ast conv t = Some v.
Proof.
  intros Hc H. assert (E : exists v, Padded (generated conv) s v).
  { revert H. apply (texts_change no_halves (generated conv)).
    - intros w n [Hw _]. specialize (Hc w Hw). destruct (conv w) as [n' |] eqn:En; [| contradiction]. exists n'. now split.
    - intros w y [w' s' Hs]. enough (E : exists s2, Chars (generated conv) w' s2) by (destruct E as [s2 E]; exists s2; now constructor).
      induction Hs as [| c w1 s1 Hp _ [s2 IH] | e c w1 s1 He _ [s2 IH] | u c w1 s1 (Hu & Hn & _) _ [s2 IH]].
      + exists []. constructor.
      + exists (c :: s2). now apply chars_plain.
      + exists (c :: s2). now apply chars_escape.
      + eexists. apply (chars_unicode (generated conv) u); [now apply one_unit | exact IH].
    - auto. }
  destruct E as [v Hv]. apply C70_value in Hv as (t & H1 & H2). eauto.
Qed.
(** But it does panic on text the parser accepts: half of a pair by itself. *)
Definition quoted_text (s : rstr) : rstr := quote :: s ++ [quote].
Theorem C70_never_panics_refuted {num} (conv : rstr -> option num) : exists t, parses json_tab json_root (quoted_text (lit "\ud800")) (Ok t) /\ of_ast conv t = None.
Proof.
  destruct (GenSem.parse_str json_tab 200 json_root (quoted_text (lit "\ud800"))) as [t | | |] eqn:E; [| vm_compute in E; discriminate E ..].
  exists t. split; [exact (json_run _ _ _ E) |]. vm_compute in E. injection E as <-. reflexivity.
Qed.

(** ** C71: the two parsers *)
Lemma number_run_of_json w : JsonNumber w -> number_run_text w.
Proof.
  intros H. assert (Hd : forall ds, Forall digit ds -> Forall number_char ds) by (intros ds; apply Forall_impl; intros c Hc; now left).
  assert (Hc : forall c, In c (lit "+-.eE") -> number_char c) by (intros c Hc; now right).
  destruct H as [sign int frac exp Hs Hi Hf He].
  assert (Hfr : Forall number_char frac). { destruct Hf as [-> | (ds & -> & _ & Hds)]; [constructor |]. constructor; [apply Hc; cbn; auto | now apply Hd]. }
  assert (Hex : Forall number_char exp).
  { destruct He as [-> | (e & s & ds & -> & Hin & Hsg & _ & Hds)]; [constructor |]. constructor; [apply Hc; cbn in *; tauto |]. apply Forall_app. split; [| now apply Hd].
    destruct Hsg as [-> | [-> | ->]]; [constructor | |]; (constructor; [apply Hc; cbn; auto | constructor]). }
  assert (Hint : exists c w, int = c :: w /\ digit c /\ Forall number_char w).
  { destruct Hi as [-> | (c & ds & -> & Hc1 & Hds)]; [exists 48%N, []; split; [reflexivity |]; split; [unfold digit; lia | constructor] |]. exists c, ds. split; [reflexivity |]. split; [unfold digit; lia | now apply Hd]. }
  destruct Hint as (c & w & -> & Hcd & Hw). destruct Hs as [-> | <-].
  - cbn [app]. constructor; [now left |]. repeat (apply Forall_app; split); assumption.
  - cbn [app lit]. constructor; [now right |]. constructor; [now left |]. repeat (apply Forall_app; split); assumption.
Qed.
(** On texts without [\u] escapes, and with nothing inside empty brackets,
    both give the same value. *)
Theorem C71_agree (checks : bool) {num} (conv : rstr -> option num) s v fuel : Padded (common conv) s v -> length s < fuel ->
  parse_json checks conv fuel s = Ok v /\ exists t, parses json_tab json_root s (Ok t) /\ of_ast conv t = Some v.
Proof.
  intros H Hf. split.
  - assert (Hh : Padded (hand conv) s v).
    { revert H. apply (texts_same (common conv) (hand conv)).
      - intros w n [Hw E]. split; [now apply number_run_of_json | exact E].
      - intros w x [w' s' Hs]. constructor. induction Hs as [| c w1 s1 (Hp & H1 & H2) _ IH | e c w1 s1 He _ IH | u c w1 s1 [] _ IH].
        + constructor.
        + apply chars_plain; [| exact IH]. split; [| auto]. unfold max_char. lia.
        + now apply chars_escape.
      - auto. }
    apply parse_json_ok; [exact Hf | now apply (texts_valid conv) in Hh | exact Hh].
  - apply C70_value. revert H. apply (texts_same (common conv) (generated conv)).
    + auto.
    + intros w x [w' s' Hs]. constructor. induction Hs as [| c w1 s1 Hp _ IH | e c w1 s1 He _ IH | u c w1 s1 [] _ IH]; [constructor | now apply chars_plain | now apply chars_escape].
    + intros w ->. constructor.
Qed.
(** Elsewhere they differ: white space between empty brackets, *)
Theorem C71_same_language_refuted (checks : bool) {num} (conv : rstr -> option num) :
  (exists t, parses json_tab json_root (lit "[ ]") (Ok t)) /\ exists e, parse_json checks conv 20 (lit "[ ]") = Err e.
Proof.
  split; [| eexists; destruct checks; reflexivity]. destruct (GenSem.parse_str json_tab 200 json_root (lit "[ ]")) as [t | | |] eqn:E; [| vm_compute in E; discriminate E ..].
  exists t. exact (json_run _ _ _ E).
Qed.
(** characters that are not ASCII, *)
Theorem C71_non_ascii_refuted (checks : bool) {num} (conv : rstr -> option num) :
  (exists x, parses json_tab json_root (quoted_text [233%N]) (Err x)) /\ parse_json checks conv 20 (quoted_text [233%N]) = Ok (JString [233%N]).
Proof.
  split; [| destruct checks; reflexivity]. destruct (C69_returns (quoted_text [233%N])) as [[t Ht] | H]; [exfalso | exact H].
  apply json_parses in Ht as [Hd E]. assert (X : parses json_tab json_root (quoted_text [233%N]) (Ok t)) by now apply json_parses.
  pose proof (parses_run json_tab 200 json_root (quoted_text [233%N])) as Y. assert (N : GenSem.parse_str json_tab 200 json_root (quoted_text [233%N]) <> OutOfFuel) by (vm_compute; discriminate).
  specialize (Y N). pose proof (parses_fun _ _ _ _ _ X Y) as Z. clear - Z. vm_compute in Z. discriminate Z.
Qed.
(** and the value of [\u] escapes. *)
Theorem C71_same_value_refuted (checks : bool) {num} (conv : rstr -> option num) :
  (exists t, parses json_tab json_root (quoted_text (lit "\u0041")) (Ok t) /\ of_ast conv t = Some (JString (lit "A"))) /\
  parse_json checks conv 20 (quoted_text (lit "\u0041")) = Ok (JString [0%N]).
Proof.
  split; [| destruct checks; reflexivity]. destruct (GenSem.parse_str json_tab 200 json_root (quoted_text (lit "\u0041"))) as [t | | |] eqn:E; [| vm_compute in E; discriminate E ..].
  exists t. split; [exact (json_run _ _ _ E) |]. vm_compute in E. injection E as <-. reflexivity.
Qed.

(** ** C72: the generated parser reads back what is printed *)
(** Values whose strings are ASCII, if their numbers are printed as JSON
    numbers that [str::parse] takes back. *)
Theorem C72_round_trip (checks : bool) {num} (conv : rstr -> option num) (show : num -> rstr) v t :
  everywhere (Forall (fun c => c < 127)%N) (fun n => JsonNumber (show n) /\ conv (show n) = Some n) (@NoDup rstr) v ->
  display checks show v = Some t -> exists tr v', parses json_tab json_root t (Ok tr) /\ of_ast conv tr = Some v' /\ same v v'.
Proof.
  intros Hv Hd.
  assert (Hw : everywhere valid_text (fun _ => True) (fun _ => True) v).
  { revert Hv. apply everywhere_impl; auto. intros s. apply Forall_impl. intros c Hc. unfold max_char. lia. }
  assert (Hc : everywhere clean (fun _ => True) (fun _ => True) v) by (apply (display_iff checks conv show v Hw); congruence).
  assert (Hf : everywhere (Forall (fun c => (c < 127)%N /\ ~ unprintable c)) (fun n => JsonNumber (show n) /\ conv (show n) = Some n) (fun _ => True) v).
  { clear - Hv Hc. induction v as [| b | n | s | l IH | l IH] using value_ind'; inversion Hv; inversion Hc; subst; constructor; auto.
    - unfold clean in *. rewrite Forall_forall in *. auto.
    - rewrite Forall_forall in *. intros x Hx. apply (IH x Hx); auto.
    - rewrite Forall_forall in *. intros x Hx. match goal with Hx2 : forall e, In e l -> Forall _ (fst e) /\ _, Hx3 : forall e, In e l -> clean (fst e) /\ _ |- _ => specialize (Hx2 x Hx) as [Ha Hb]; specialize (Hx3 x Hx) as [Hc2 Hd] end.
      split; [| now apply (IH x Hx)]. unfold clean in *. rewrite Forall_forall in *. auto. }
  destruct (display_in checks show (generated conv) (fun c => (c < 127)%N /\ ~ unprintable c) (fun n => JsonNumber (show n) /\ conv (show n) = Some n)) with (v := v) as (t' & E & Hval); auto.
  - intros c [H1 H2]. destruct (valid_plain_cases c) as [E | [-> | [-> | [-> | [-> | [-> | [-> | [-> | E]]]]]]]]; [unfold max_char; lia | | | | | | | | | contradiction];
      try (eexists; split; [reflexivity |]; apply chars_escape; [cbn; auto 12 | constructor]).
    exists [c]. unfold write_char. rewrite E. split; [reflexivity |]. apply chars_plain; [| constructor]. apply is_plain_iff in E. destruct E as (E1 & E2 & E3). split; [lia | auto].
  - constructor.
  - rewrite E in Hd. injection Hd as <-. assert (Hp : Padded (generated conv) t' (rotate v)) by (rewrite <- (app_nil_r t'); apply (padded _ [] t' []); [constructor | exact Hval | constructor]).
    apply C70_value in Hp as (tr & H1 & H2). exists tr, (rotate v). split; [exact H1 |]. split; [exact H2 |]. exact (same_rotate conv _ _ _ Hv).
Qed.
(** The printer leaves other characters as they are, and those are rejected. *)
Theorem C72_non_ascii_refuted (checks : bool) {num} (show : num -> rstr) : exists t x, display checks show (JString [233%N]) = Some t /\ parses json_tab json_root t (Err x).
Proof.
  destruct (C71_non_ascii_refuted checks (fun _ => @None num)) as [[x Hx] _]. exists (quoted_text [233%N]), x. split; [destruct checks; reflexivity | exact Hx].
Qed.
(** ** Examples *)
(** The type names the conversions of nibble.rs rely on. *)
Example C69_ex_names : map (fun i => option_map en_name (nth_error json_tab i)) [8; 61; 74; 142; 144; 145; 146; 147; 148; 149; 152; 153; 154; 162; 165; 166; 168; 169; 175; 176; 178; 179] =
  map (fun s => Some (TnIdent (lit s))) ["Value1"; "Number1"; "Lit75"; "Literal1"; "Ascii1"; "Hex1"; "Unicode1"; "Alt148"; "Escape1"; "Char1"; "Opt5"; "String1"; "Ws1"; "Member1"; "Some8"; "Opt7"; "Opt8"; "Object1"; "Some9"; "Opt9"; "Opt10"; "Array1"]%string.
Proof. vm_compute. reflexivity. Qed.
Definition sample : rstr := lit " { " ++ quoted_text (lit "k\n") ++ lit " : [1, -2.5e+3 ,[ ] ], " ++ quoted_text [] ++ lit ":" ++ quoted_text (lit "\ud83d\ude00\u0041/") ++ lit "} ".
Example C70_ex : exists t, parses json_tab json_root sample (Ok t) /\
  of_ast (fun w => Some w) t = Some (JObject [([107; 10]%N, JArray [JNumber (lit "1"); JNumber (lit "-2.5e+3"); JArray []]); ([], JString [128512; 65; 47]%N)]).
Proof.
  destruct (GenSem.parse_str json_tab 300 json_root sample) as [t | | |] eqn:E; [| vm_compute in E; discriminate E ..].
  exists t. split; [exact (json_run _ _ _ E) |]. vm_compute in E. injection E as <-. vm_compute. reflexivity.
Qed.
Example C70_ex_no_panic : exists x, Padded no_halves (lit "[1]") x.
Proof.
  exists (JArray [JNumber (lit "1")]). apply (padded no_halves [] (lit "[1]") []); [constructor | | constructor]. apply (val_array no_halves (lit "1")). apply elements_one.
  apply (padded no_halves [] (lit "1") []); [constructor | | constructor]. apply val_number. split; [| reflexivity].
  apply (json_number [] (lit "1") [] []); [now left | | now left | now left]. right. exists 49%N, []. split; [reflexivity |]. split; [lia | constructor].
Qed.
Example C71_ex : Padded (common (fun w => Some w)) (lit " [1]") (JArray [JNumber (lit "1")]).
Proof.
  apply (padded _ (lit " ") (lit "[1]") []); [repeat constructor | | constructor]. apply (val_array _ (lit "1")). apply elements_one.
  apply (padded _ [] (lit "1") []); [constructor | | constructor]. apply val_number. split; [| reflexivity].
  apply (json_number [] (lit "1") [] []); [now left | | now left | now left]. right. exists 49%N, []. split; [reflexivity |]. split; [lia | constructor].
Qed.
Print Assumptions C69_language.
Print Assumptions C69_returns.
Print Assumptions C70_value.
Print Assumptions C70_panics.
Print Assumptions C70_unambiguous.
Print Assumptions C70_no_panic.
Print Assumptions C70_never_panics_refuted.
Print Assumptions C71_agree.
Print Assumptions C71_same_language_refuted.
Print Assumptions C71_non_ascii_refuted.
Print Assumptions C71_same_value_refuted.
Print Assumptions C72_round_trip.
Print Assumptions C72_non_ascii_refuted.
