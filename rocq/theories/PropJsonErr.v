(** * PropJsonErr: C101, the errors of the hand-written JSON reader. *)
From Coq Require Import String Arith Lia.
From Verif Require Import Runtime RuntimeFacts Json SpecJson JsonFacts JsonRead SpecJsonError JsonErr2 JsonErr4 JsonErr6 JsonErr7 JsonErr8.
From Coq Require Import List NArith.
Import ListNotations.
Open Scope list_scope.

(** All errors: a wrong text gives the error reported about it; a value with
    more behind it is said to continue there. *)
Theorem C101_errors : forall checks {num} (conv : rstr -> option num) fuel s e, length s < fuel -> valid_text s ->
  (parse_json checks conv fuel s = Err e <->
   (exists k u rest p, s = u ++ rest /\ Wrong (hand conv) k u rest p /\ e = PTake (snd (reported k u rest p))) \/
   (exists u v c rest, s = u ++ c :: rest /\ Padded (hand conv) u v /\ over u (c :: rest) /\ e = InputContinues (place u (c :: rest)))).
Proof. intros checks num conv fuel s e. apply json_errors. Qed.

(** The place where a text is wrong is the first wrong one: what is before it
    can be completed, what is before it and the next character cannot. *)
Theorem C101_place : forall {num} (conv : rstr -> option num) u rest,
  (exists k p, Wrong (hand conv) k u rest p) \/ (exists v, Padded (hand conv) u v /\ over u rest) ->
  viable_value (hand conv) u /\ forall c r, rest = c :: r -> ~ viable_value (hand conv) (u ++ [c]).
Proof.
  intros num conv u rest [(k & p & W) | (v & Hv & Ho)].
  - split; [apply (proj1 (wrong_viable conv) _ _ _ _ W) |]. intros c r ->. now apply (wrong_next true conv k u c r p).
  - split; [exists [], v; now rewrite app_nil_r |]. intros c r ->. now apply (over_next true conv u v c r).
Qed.
(** There is only one such place. *)
Theorem C101_one_place : forall {num} (D : dialect num) u rest u' rest', u ++ rest = u' ++ rest' -> viable_value D u -> viable_value D u' ->
  (forall c r, rest = c :: r -> ~ viable_value D (u ++ [c])) -> (forall c r, rest' = c :: r -> ~ viable_value D (u' ++ [c])) -> u = u' /\ rest = rest'.
Proof.
  intros num D. assert (Pre : forall u v, viable_value D (u ++ v) -> viable_value D u). { intros u v (t & x & H). exists (v ++ t), x. now rewrite app_assoc. }
  assert (K : forall u x rest', viable_value D (u ++ x) -> (forall c r, x ++ rest' = c :: r -> ~ viable_value D (u ++ [c])) -> x = []).
  { intros u [| c x] rest' H Hn; [reflexivity |]. exfalso. apply (Hn c (x ++ rest') eq_refl). apply (Pre _ x). now rewrite <- app_assoc. }
  intros u rest u' rest' E Hu Hu' H H'. apply app_eq_app in E as (x & [[-> ->] | [-> ->]]).
  - rewrite (K u' x rest Hu H'). now rewrite app_nil_r.
  - rewrite (K u x rest' Hu' H). now rewrite app_nil_r.
Qed.

Definition in_string (p : problem) : Prop := p = Unfinished \/ p = HexDigit.
(** The text ends too early: outside strings the error is at its end, in a
    string one column later. *)
Theorem C101_end : forall {num} (conv : rstr -> option num) k u p, Wrong (hand conv) k u [] p ->
  snd (reported k u [] p) = EndOfStream (match p with Expect _ | Word _ _ => place u [] | _ => one_later (place u []) end).
Proof.
  intros num conv k u p _. induction k as [| c k IH] using rev_ind; [now destruct p |]. rewrite reported_snoc.
  assert (E : exists v, fst (reported k u [] p) = (v, [])).
  { clear IH. induction k as [| d k IH] using rev_ind; [exists u; now destruct p |]. rewrite reported_snoc. destruct IH as [v E]. destruct (reported k u [] p) as [[v' r'] e]. cbn [fst] in E. injection E as -> ->. now exists v. }
  destruct E as [v E]. destruct (reported k u [] p) as [[v' r'] e]. cbn [fst snd] in *. injection E as -> ->. cbn [passing snd]. now rewrite IH.
Qed.
(** Outside brackets and strings, the error is at the place, about the
    character there. *)
Theorem C101_outside : forall {num} (conv : rstr -> option num) u c rest p, Wrong (hand conv) [] u (c :: rest) p -> ~ in_string p ->
  snd (reported [] u (c :: rest) p) = match p with Word x w => BadString (place u (c :: rest)) (x ++ [c]) w | Expect l => BadBranch (place u (c :: rest)) c l | _ => EndOfStream (place u []) end.
Proof. intros num conv u c rest [l | x w | |] _ H; [reflexivity | reflexivity | elim H; now left | elim H; now right]. Qed.
Lemma ends_in_number_dec u : ends_in_number u \/ ~ ends_in_number u.
Proof.
  assert (K : forall n, n <= length u -> {exists w0 x, u = w0 ++ x /\ number_run_text x /\ length x <= n} + {forall w0 x, u = w0 ++ x -> number_run_text x -> n < length x}).
  { induction n as [| n IH]; intros Hn.
    - right. intros w0 x _ [c w _ _]. cbn. lia.
    - destruct IH as [H | H]; [lia | left; destruct H as (w0 & x & H1 & H2 & H3); exists w0, x; repeat split; auto |].
      set (x := skipn (length u - S n) u). assert (Lx : length x = S n) by (unfold x; rewrite skipn_length; lia). assert (Eu : u = firstn (length u - S n) u ++ x) by (symmetry; apply firstn_skipn).
      destruct (match x with c :: w => (in_range 48 57 c || N.eqb c (chr "-")) && forallb is_number_char w | [] => false end) eqn:E.
      + left. exists (firstn (length u - S n) u), x. split; [exact Eu |]. split; [| lia]. destruct x as [| c w]; [discriminate E |]. apply andb_true_iff in E as [E1 E2]. constructor.
        * apply orb_true_iff in E1 as [E1 | E1]; [left; now apply in_range_iff | right; now apply N.eqb_eq].
        * apply Forall_forall. intros d Hd. apply is_number_char_iff. rewrite forallb_forall in E2. now apply E2.
      + right. intros w0 x' Eu' Hx'. specialize (H w0 x' Eu' Hx'). destruct (Nat.eq_dec (length x') (S n)) as [L |]; [| lia]. exfalso.
        assert (x' = x). { rewrite Eu in Eu' at 1. apply (f_equal (fun l => skipn (length l - S n) l)) in Eu'. revert Eu'. rewrite !app_length, Lx, L, !Nat.add_sub. rewrite !skipn_app, !skipn_all, !Nat.sub_diag. cbn [skipn app]. congruence. }
        subst x'. destruct Hx' as [c w Hc Hw]. apply andb_false_iff in E as [E | E].
        * apply orb_false_iff in E as [E1 E2]. destruct Hc as [Hc | ->]; [apply in_range_iff in Hc; congruence | discriminate E2].
        * assert (forallb is_number_char w = true); [| congruence]. apply forallb_forall. intros d Hd. apply is_number_char_iff. rewrite Forall_forall in Hw. now apply Hw. }
  destruct (K (length u) (le_n _)) as [H | H].
  - left. destruct H as (w0 & x & H1 & H2 & _). now exists w0, x.
  - right. intros (w0 & x & -> & Hx). specialize (H w0 x eq_refl Hx). rewrite app_length in H. lia.
Qed.
Lemma first_viable {num} (conv : rstr -> option num) d : (forall d, digit d \/ d = chr "-" -> exists w x, number_run_text (d :: w) /\ conv (d :: w) = Some x) ->
  In d element_firsts -> exists t v, Padded (hand conv) (d :: t) v.
Proof.
  intros Hc Hd. assert (Pv : forall w v, Val (hand conv) w v -> Padded (hand conv) w v) by (intros w v H; apply (padded_val conv [] w v (Forall_nil _) H)).
  assert (Nu : digit d \/ d = chr "-" -> exists t v, Padded (hand conv) (d :: t) v). { intros H. destruct (Hc d H) as (w & x & Hw & Hx). exists w, (JNumber x). apply Pv, val_number. now split. }
  assert (Bl : forall c, In c blanks -> exists t v, Padded (hand conv) (c :: t) v). { intros c Hb. exists (lit "null"), JNull. apply (padded_val conv [c]); [constructor; [exact Hb | constructor] | constructor]. }
  apply in_app_or in Hd as [Hd | Hd]; [| now apply Bl].
  assert (Cs : (d = chr "t" \/ d = chr "f" \/ d = chr "n" \/ d = quote \/ d = chr "[" \/ d = chr "{") \/ (digit d \/ d = chr "-")).
  { unfold digit. cbn in Hd. repeat (destruct Hd as [<- | Hd]; [first [left; tauto | right; right; reflexivity | right; left; lia] |]). contradiction. }
  destruct Cs as [Cs | Cs]; [| now apply Nu]. destruct Cs as [-> | [-> | [-> | [-> | [-> | ->]]]]].
  - exists (lit "rue"), (JBool true). apply Pv. constructor.
  - exists (lit "alse"), (JBool false). apply Pv. constructor.
  - exists (lit "ull"), JNull. apply Pv. constructor.
  - exists [quote], (JString []). apply Pv. constructor. apply (quoted (hand conv) [] []). constructor.
  - exists (lit "]"), (JArray []). apply Pv. now apply (val_array0 (hand conv) []).
  - exists (lit "}"), (JObject []). apply Pv. now apply (val_object0 (hand conv) []).
Qed.
(** There, what is expected are the characters that can go on, white space and
    more of a number aside. *)
Theorem C101_expected : forall {num} (conv : rstr -> option num) u rest l, Wrong (hand conv) [] u rest (Expect l) ->
  (forall d, digit d \/ d = chr "-" -> exists w x, number_run_text (d :: w) /\ conv (d :: w) = Some x) ->
  forall d, (In d l -> viable_value (hand conv) (u ++ [d])) /\ (viable_value (hand conv) (u ++ [d]) -> In d l \/ In d blanks \/ (ends_in_number u /\ number_char d)).
Proof.
  intros num conv u rest l W Hc d.
  assert (Dec : In d l \/ In d blanks \/ (ends_in_number u /\ number_char d) \/ (~ In d l /\ ~ In d blanks /\ ~ (ends_in_number u /\ number_char d))).
  { destruct (in_dec N.eq_dec d l); [tauto |]. destruct (in_dec N.eq_dec d blanks); [tauto |]. destruct (ends_in_number_dec u); [| tauto]. destruct (is_number_char d) eqn:E; [apply is_number_char_iff in E; tauto |]. right. right. right. split; [assumption |]. split; [assumption |]. intros [_ X]. apply is_number_char_iff in X. congruence. }
  assert (Nv : forall W' : ~ In d l -> ~ In d blanks -> ~ (ends_in_number u /\ number_char d) -> Wrong (hand conv) [] u [d] (Expect l), viable_value (hand conv) (u ++ [d]) -> In d l \/ In d blanks \/ (ends_in_number u /\ number_char d)).
  { intros W' V. destruct Dec as [H | [H | [H | (H1 & H2 & H3)]]]; [tauto | tauto | tauto |]. exfalso. apply (wrong_next true conv [] u d [] (Expect l) (W' H1 H2 H3) V). }
  assert (A : forall a w l, ws a -> Elements (hand conv) w l -> Padded (hand conv) (a ++ lit "[" ++ w ++ lit "]") (JArray l)) by (intros a w l0 Ha Hl; apply padded_val; [exact Ha | now constructor]).
  assert (O : forall a w l, ws a -> Members (hand conv) w l -> Padded (hand conv) (a ++ lit "{" ++ w ++ lit "}") (JObject l)) by (intros a w l0 Ha Hl; apply padded_val; [exact Ha | now constructor]).
  assert (Nl : Padded (hand conv) (lit "null") JNull) by (apply (padded_val conv [] (lit "null")); constructor).
  assert (Mm : forall a, ws a -> Member (hand conv) (a ++ quote :: quote :: lit ":null") ([], JNull)). { intros a Ha. apply (member (hand conv) a [quote; quote] [] [] (lit "null")); [exact Ha | apply (quoted (hand conv) [] []); constructor | constructor | exact Nl]. }
  remember (Expect l) as p eqn:Ep. remember (@nil char) as k eqn:Ek. destruct W as [a rest Ha Hn | | a u rest p Ha Hs | | | a w m rest Ha Hl Hn | a w m rest Ha Hl Hn | | | a w m rest Ha Hl Hn | a w m rest Ha Hl Hn]; try discriminate Ep; try (destruct k; discriminate Ek); try (subst p; now inversion Hs); injection Ep as <-.
  - split.
    + intros Hd. destruct (first_viable conv d Hc) as (t & v & Ht); [apply in_or_app; now left |]. exists t, v. rewrite <- app_assoc. cbn [app]. inversion Ht; subst. rewrite app_assoc. constructor; [now apply Forall_app | assumption | assumption].
    + apply Nv. intros H1 H2 _. apply wrong_value; [exact Ha |]. intros c [= <-] H. apply in_app_or in H. tauto.
  - split.
    + intros Hd. destruct (first_viable conv d Hc Hd) as (t & v & Ht). exists (t ++ lit "]"), (JArray (m ++ [v])). rewrite <- !app_assoc. change ([d] ++ t ++ lit "]") with ((d :: t) ++ lit "]"). rewrite (app_assoc (lit ",")), (app_assoc w). apply A; [exact Ha | now apply elements_snoc].
    + apply Nv. intros H1 _ _. apply (wrong_element_next (hand conv) a w m); [exact Ha | exact Hl |]. intros c [= <-] H. tauto.
  - split.
    + intros Hd. assert (Hd' : d = chr "," \/ d = chr "]") by (destruct Hd as [H | [H | []]]; [left | right]; now rewrite <- H). clear Hd Dec Nv. destruct Hd' as [-> | ->].
      * exists (lit "null]"), (JArray (m ++ [JNull])). rewrite <- !app_assoc. change ([chr ","] ++ lit "null]") with ((lit "," ++ lit "null") ++ lit "]"). rewrite (app_assoc w). apply A; [exact Ha | now apply elements_snoc].
      * exists [], (JArray m). rewrite app_nil_r, <- !app_assoc. now apply A.
    + apply Nv. intros H1 H2 H3. apply (wrong_element_end (hand conv) a w m); [exact Ha | exact Hl |]. intros c [= <-] [H | [H H']]; [apply in_app_or in H; tauto |]. apply H3. split; [| exact H']. destruct H as (w0 & x & -> & Hx). exists (a ++ lit "[" ++ w0), x. split; [now rewrite <- !app_assoc | exact Hx].
  - split.
    + intros [<- | Hd].
      * exists (quote :: lit ":null" ++ lit "}"), (JObject (m ++ [([], JNull)])). rewrite <- !app_assoc. change ([quote] ++ quote :: lit ":null" ++ lit "}") with ((quote :: quote :: lit ":null") ++ lit "}"). rewrite (app_assoc (lit ",")), (app_assoc w). apply O; [exact Ha |]. apply members_snoc; [exact Hl | apply (Mm []); constructor].
      * exists ((quote :: quote :: lit ":null") ++ lit "}"), (JObject (m ++ [([], JNull)])). rewrite <- !app_assoc. rewrite (app_assoc [d]), (app_assoc (lit ",")), (app_assoc w). apply O; [exact Ha |]. apply members_snoc; [exact Hl |]. apply (Mm [d]). constructor; [exact Hd | constructor].
    + apply Nv. intros H1 _ _. apply (wrong_member_next (hand conv) a w m); [exact Ha | exact Hl |]. intros c [= <-] H. tauto.
  - split.
    + intros Hd. assert (Hd' : d = chr "," \/ d = chr "}") by (destruct Hd as [H | [H | []]]; [left | right]; now rewrite <- H). clear Hd Dec Nv. destruct Hd' as [-> | ->].
      * exists ((quote :: quote :: lit ":null") ++ lit "}"), (JObject (m ++ [([], JNull)])). rewrite <- !app_assoc. change ([chr ","]) with (lit ","). rewrite (app_assoc (lit ",")), (app_assoc w). apply O; [exact Ha |]. apply members_snoc; [exact Hl | apply (Mm []); constructor].
      * exists [], (JObject m). rewrite app_nil_r, <- !app_assoc. now apply O.
    + apply Nv. intros H1 H2 H3. apply (wrong_member_end (hand conv) a w m); [exact Ha | exact Hl |]. intros c [= <-] [H | [H H']]; [apply in_app_or in H; tauto |]. apply H3. split; [| exact H']. destruct H as (w0 & x & -> & Hx). exists (a ++ lit "{" ++ w0), x. split; [now rewrite <- !app_assoc | exact Hx].
Qed.
(** Inside brackets, if the next character is neither a comma nor the closing
    bracket of the outermost, this is all that is said. *)
Theorem C101_inside : forall k o u c rest p, ~ in_string p -> c <> chr "," -> c <> o ->
  snd (reported (k ++ [o]) u (c :: rest) p) = BadBranch (place u (c :: rest)) c [chr ","; o].
Proof.
  intros k o u c rest p Hp Hc Ho. rewrite reported_snoc. apply N.eqb_neq in Hc, Ho.
  assert (E : fst (reported k u (c :: rest) p) = (u, c :: rest)).
  { induction k as [| d k IH] using rev_ind; [destruct p; [reflexivity | reflexivity | elim Hp; now left | elim Hp; now right] |]. rewrite reported_snoc. destruct (reported k u (c :: rest) p) as [[v' r'] e]. cbn [fst] in IH. injection IH as -> ->. cbn [passing]. now rewrite Hc. }
  destruct (reported k u (c :: rest) p) as [[v' r'] e]. cbn [fst] in E. injection E as -> ->. cbn [passing]. now rewrite Hc, Ho.
Qed.

(** ** What is said can be wrong *)
(** "[x": a comma and a closing bracket are expected, and a comma is wrong
    there. *)
Theorem C101_expected_refuted : exists s u c rest l d, s = u ++ c :: rest /\
  parse_json true (fun s => Some s) 20 s = Err (PTake (BadBranch (place u (c :: rest)) c l)) /\ viable_value (hand (fun s => Some s)) u /\
  In d l /\ ~ viable_value (hand (fun s => Some s)) (u ++ [d]).
Proof.
  exists (lit "[x"), (lit "["), (chr "x"), [], (lit ",]"), (chr ","). split; [reflexivity |]. split; [reflexivity |].
  assert (W : Wrong (hand (fun s : rstr => Some s)) (lit "]") (lit "[") (lit ",") (Expect value_firsts)).
  { apply (wrong_element _ [] [] [] (lit ",") _ (Forall_nil _)); [| discriminate]. apply wrong_value; [constructor |]. intros c [= <-] H. apply mem_char_In in H. discriminate H. }
  split; [exact (proj1 (C101_place _ _ _ (or_introl (ex_intro _ _ (ex_intro _ _ W))))) |]. split; [now left |]. now apply (wrong_next true _ _ _ _ [] _ W).
Qed.
(** "[,,": the first comma is wrong, and the error is about the second. *)
Theorem C101_late_refuted : exists s u c rest e, s = u ++ c :: rest /\ parse_json true (fun s => Some s) 20 s = Err (PTake e) /\
  viable_value (hand (fun s => Some s)) u /\ ~ viable_value (hand (fun s => Some s)) (u ++ [c]) /\ terr_pos e = LC 1 2 /\ place u (c :: rest) = LC 1 1.
Proof.
  exists (lit "[,,"), (lit "["), (chr ","), (lit ","). eexists. split; [reflexivity |]. split; [vm_compute; reflexivity |].
  assert (W : Wrong (hand (fun s : rstr => Some s)) (lit "]") (lit "[") (lit ",,") (Expect value_firsts)).
  { apply (wrong_element _ [] [] [] (lit ",,") _ (Forall_nil _)); [| discriminate]. apply wrong_value; [constructor |]. intros c [= <-] H. apply mem_char_In in H. discriminate H. }
  split; [exact (proj1 (C101_place _ _ _ (or_introl (ex_intro _ _ (ex_intro _ _ W))))) |]. split; [now apply (wrong_next true _ _ _ _ (lit ",") _ W) |]. split; reflexivity.
Qed.
Local Definition said (s : string) := parse_json true (fun s => Some s) 40 (lit s).
Example C101_ex : said "nul" = Err (PTake (EndOfStream (LC 1 3))) /\ said "nulx" = Err (PTake (BadString (LC 1 3) (lit "nulx") (lit "null"))) /\
  said "  x" = Err (PTake (BadBranch (LC 1 2) (chr "x") value_firsts)) /\ said "[1 2]" = Err (PTake (BadBranch (LC 1 3) (chr "2") (lit ",]"))) /\
  said "[[1 2]]" = Err (PTake (BadBranch (LC 1 4) (chr "2") (lit ",]"))) /\ said "[1,x]" = Err (PTake (BadBranch (LC 1 3) (chr "x") element_firsts)) /\
  said "1 x" = Err (InputContinues (LC 1 2)) /\ parse_json true (fun s => Some s) 40 (quote :: lit "ab") = Err (PTake (EndOfStream (LC 1 4))).
Proof. repeat split. Qed.
Example C101_ex_numbers : forall d, digit d \/ d = chr "-" -> exists w x, number_run_text (d :: w) /\ (fun s : rstr => Some s) (d :: w) = Some x.
Proof. intros d Hd. exists [], [d]. split; [now constructor | reflexivity]. Qed.
Print Assumptions C101_errors. Print Assumptions C101_place. Print Assumptions C101_one_place. Print Assumptions C101_end. Print Assumptions C101_outside. Print Assumptions C101_expected. Print Assumptions C101_inside. Print Assumptions C101_expected_refuted. Print Assumptions C101_late_refuted.
