(** * JsonErr8: the place of an error of the hand-written JSON reader is the
    first wrong one, and all the errors there are. *)
From Coq Require Import String Arith Lia.
From Verif Require Import Runtime RuntimeFacts Json SpecJson JsonFacts JsonRead SpecJsonError JsonErr JsonErr2 JsonErr3 JsonErr4 JsonErr5 JsonErr6 JsonErr7.
From Coq Require Import List NArith.
Import ListNotations.
Open Scope list_scope.

Section Values.
  Variable checks : bool.
  Context {num : Type}.
  Variable conv : rstr -> option num.
  Notation D := (hand conv).
  Notation value_at n := (take_value checks conv n).

  Lemma elements_snoc w l w' v : Elements D w l -> Padded D w' v -> Elements D (w ++ lit "," ++ w') (l ++ [v]).
  Proof.
    intros H Hv. induction H as [w x Hx | w x w1 l Hx _ IH]; cbn [app].
    - apply (elements_more D w x w' [v]); [exact Hx | now constructor].
    - rewrite <- !app_assoc. now apply (elements_more D).
  Qed.
  Lemma members_snoc w l w' v : Members D w l -> Member D w' v -> Members D (w ++ lit "," ++ w') (l ++ [v]).
  Proof.
    intros H Hv. induction H as [w x Hx | w x w1 l Hx _ IH]; cbn [app].
    - apply (members_more D w x w' [v]); [exact Hx | now constructor].
    - rewrite <- !app_assoc. now apply (members_more D).
  Qed.
  Lemma chars_app w s w' s' : Chars D w s -> Chars D w' s' -> Chars D (w ++ w') (s ++ s').
  Proof. intros H H'. induction H as [| c w s Hc _ IH | e c w s Hc _ IH | u c w s Hc _ IH]; cbn [app]; [exact H' | now constructor | now constructor | rewrite <- app_assoc; now constructor]. Qed.
  Lemma string_viable u rest p : WrongString D u rest p -> exists t s, Quoted D (u ++ t) s.
  Proof.
    intros [w s Hw | w s Hw | w s h r Hw Hh Hl _].
    - exists [quote], s. now constructor.
    - exists [quote; quote], (s ++ [quote]). cbn [app]. rewrite <- app_assoc. change ([backslash] ++ [quote; quote]) with ([backslash; quote] ++ [quote]). rewrite app_assoc. constructor. apply chars_app; [exact Hw |]. apply (chars_escape D quote quote [] []); [now left | constructor].
    - exists (repeat 48%N (4 - length h) ++ [quote]), (s ++ [0%N]). cbn [app]. rewrite <- app_assoc. cbn [app]. rewrite app_assoc.
      change (quote :: w ++ backslash :: chr "u" :: (h ++ repeat 48%N (4 - length h)) ++ [quote]) with (quote :: w ++ (backslash :: chr "u" :: h ++ repeat 48%N (4 - length h)) ++ [quote]). rewrite app_assoc. constructor. apply chars_app; [exact Hw |].
      rewrite <- (app_nil_r (_ ++ repeat _ _)). apply (chars_unicode D _ 0%N [] []); [| constructor]. split; [| reflexivity]. split; [rewrite app_length, repeat_length; lia |].
      apply Forall_app. split; [exact Hh |]. apply Forall_forall. intros x Hx. apply repeat_spec in Hx as ->. unfold hex_digit. lia.
  Qed.
  Notation viable_value := (viable_value D).
  Lemma padded_val a w v : ws a -> Val D w v -> Padded D (a ++ w) v.
  Proof. intros Ha Hv. rewrite <- (app_nil_r w). now constructor; [| | constructor]. Qed.
  Theorem wrong_viable : (forall k u rest p, Wrong D k u rest p -> viable_value u) /\ (forall k u rest p, WrongMember D k u rest p -> exists t m, Member D (u ++ t) m).
  Proof.
    assert (A : forall a w l, ws a -> Elements D w l -> Padded D (a ++ lit "[" ++ w ++ lit "]") (JArray l)) by (intros a w l Ha Hl; apply padded_val; [exact Ha | now constructor]).
    assert (O : forall a w l, ws a -> Members D w l -> Padded D (a ++ lit "{" ++ w ++ lit "}") (JObject l)) by (intros a w l Ha Hl; apply padded_val; [exact Ha | now constructor]).
    assert (Nl : forall a, ws a -> Padded D (a ++ lit "null") JNull) by (intros a Ha; apply padded_val; [exact Ha | constructor]).
    assert (Mm : Member D (quote :: quote :: lit ":null") ([], JNull)). { apply (member D [] [quote; quote] [] [] (lit "null")); [constructor | apply (quoted D [] []); constructor | constructor | apply (Nl []); constructor]. }
    assert (Em : forall a q s b, ws a -> Quoted D q s -> ws b -> Member D (a ++ q ++ b ++ lit ":null") (s, JNull)). { intros a q s b Ha Hq Hb. apply (member D a q s b (lit "null")); auto. apply (Nl []). constructor. }
    apply (Wrong_mut num D (fun k u rest p => viable_value u) (fun k u rest p => exists t m, Member D (u ++ t) m)).
    - intros a rest Ha _. exists (lit "null"), JNull. now apply Nl.
    - intros a x y z rest Ha Hi _ _. exists (y :: z). rewrite <- app_assoc. destruct Hi as [<- | [<- | [<- | []]]]; eexists; (apply padded_val; [exact Ha | constructor]).
    - intros a u rest p Ha Hs. destruct (string_viable u rest p Hs) as (t & s & Hq). exists t, (JString s). rewrite <- app_assoc. apply padded_val; [exact Ha | now constructor].
    - intros a k u rest p Ha _ (t & v & Ht) _. exists (t ++ lit "]"), (JArray [v]). rewrite <- !app_assoc, (app_assoc u). apply A; [exact Ha | now constructor].
    - intros a w l k u rest p Ha Hl _ (t & v & Ht) _. exists (t ++ lit "]"), (JArray (l ++ [v])). rewrite <- !app_assoc, (app_assoc u), (app_assoc (lit ",")), (app_assoc w). apply A; [exact Ha | now apply elements_snoc].
    - intros a w l rest Ha Hl _. exists (lit "null" ++ lit "]"), (JArray (l ++ [JNull])). rewrite <- !app_assoc, (app_assoc (lit ",")), (app_assoc w). apply A; [exact Ha |]. apply elements_snoc; [exact Hl |]. apply (Nl []). constructor.
    - intros a w l rest Ha Hl _. exists (lit "]"), (JArray l). rewrite <- !app_assoc. now apply A.
    - intros a k u rest p Ha _ (t & m & Ht) _. exists (t ++ lit "}"), (JObject [m]). rewrite <- !app_assoc, (app_assoc u). apply O; [exact Ha | now constructor].
    - intros a w l k u rest p Ha Hl _ (t & m & Ht) _. exists (t ++ lit "}"), (JObject (l ++ [m])). rewrite <- !app_assoc, (app_assoc u), (app_assoc (lit ",")), (app_assoc w). apply O; [exact Ha | now apply members_snoc].
    - intros a w l rest Ha Hl _. exists ((quote :: quote :: lit ":null") ++ lit "}"), (JObject (l ++ [([], JNull)])). rewrite <- !app_assoc, (app_assoc (lit ",")), (app_assoc w). apply O; [exact Ha |]. now apply members_snoc.
    - intros a w l rest Ha Hl _. exists (lit "}"), (JObject l). rewrite <- !app_assoc. now apply O.
    - intros a rest Ha _. exists (quote :: quote :: lit ":null"), ([], JNull). apply (Em a [quote; quote] [] []); [exact Ha | apply (quoted D [] []); constructor | constructor].
    - intros a u rest p Ha Hs. destruct (string_viable u rest p Hs) as (t & s & Hq). exists (t ++ lit ":null"), (s, JNull). rewrite <- app_assoc, (app_assoc u). apply (Em a (u ++ t) s []); [exact Ha | exact Hq | constructor].
    - intros a q s b rest Ha Hq Hb _. exists (lit ":null"), (s, JNull). rewrite <- !app_assoc. now apply Em.
    - intros a q s b k u rest p Ha Hq Hb _ (t & v & Ht). exists t, (s, v). rewrite <- !app_assoc. now constructor.
  Qed.

  (** ** Only the next character matters *)
  Lemma next_not_head P rest rest' : hd_error rest' = hd_error rest -> next_not P rest -> next_not P rest'.
  Proof. intros E H c Hc. apply H. now rewrite <- E. Qed.
  Lemma string_head_only u rest p rest' : WrongString D u rest p -> hd_error rest' = hd_error rest -> WrongString D u rest' p.
  Proof.
    intros [w s Hw | w s Hw | w s h r Hw Hh Hl Hn] E.
    - destruct rest'; [| discriminate E]. now apply (wrong_unfinished D w s).
    - destruct rest'; [| discriminate E]. now apply (wrong_backslash D w s).
    - apply (wrong_hex D w s); auto. now apply (next_not_head _ _ _ E).
  Qed.
  Lemma hd_app (u rest rest' : rstr) : hd_error rest' = hd_error rest -> hd_error (u ++ rest') = hd_error (u ++ rest).
  Proof. intros E. now destruct u. Qed.
  Lemma wrong_head : (forall k u rest p, Wrong D k u rest p -> forall rest', hd_error rest' = hd_error rest -> Wrong D k u rest' p) /\
    (forall k u rest p, WrongMember D k u rest p -> forall rest', hd_error rest' = hd_error rest -> WrongMember D k u rest' p).
  Proof.
    apply (Wrong_mut num D (fun k u rest p => forall rest', hd_error rest' = hd_error rest -> Wrong D k u rest' p) (fun k u rest p => forall rest', hd_error rest' = hd_error rest -> WrongMember D k u rest' p)).
    - intros a rest Ha Hn rest' E. apply wrong_value; [exact Ha | now apply (next_not_head _ _ _ E)].
    - intros a x y z rest Ha Hi Hx Hn rest' E. apply wrong_word; auto. now apply (next_not_head _ _ _ E).
    - intros a u rest p Ha Hs rest' E. apply wrong_string; [exact Ha | now apply (string_head_only u rest)].
    - intros a k u rest p Ha _ IH Hh rest' E. apply wrong_element; auto. now rewrite (hd_app u _ _ E).
    - intros a w l k u rest p Ha Hl _ IH Hh rest' E. apply (wrong_elements D a w l); auto. now rewrite (hd_app u _ _ E).
    - intros a w l rest Ha Hl Hn rest' E. apply (wrong_element_next D a w l); auto. now apply (next_not_head _ _ _ E).
    - intros a w l rest Ha Hl Hn rest' E. apply (wrong_element_end D a w l); auto. now apply (next_not_head _ _ _ E).
    - intros a k u rest p Ha _ IH Hh rest' E. apply wrong_member_first; auto. now rewrite (hd_app u _ _ E).
    - intros a w l k u rest p Ha Hl _ IH Hh rest' E. apply (wrong_members D a w l); auto. now rewrite (hd_app u _ _ E).
    - intros a w l rest Ha Hl Hn rest' E. apply (wrong_member_next D a w l); auto. now apply (next_not_head _ _ _ E).
    - intros a w l rest Ha Hl Hn rest' E. apply (wrong_member_end D a w l); auto. now apply (next_not_head _ _ _ E).
    - intros a rest Ha Hn rest' E. apply wrong_key; [exact Ha | now apply (next_not_head _ _ _ E)].
    - intros a u rest p Ha Hs rest' E. apply wrong_key_string; [exact Ha | now apply (string_head_only u rest)].
    - intros a q s b rest Ha Hq Hb Hn rest' E. apply (wrong_colon D a q s b); auto. now apply (next_not_head _ _ _ E).
    - intros a q s b k u rest p Ha Hq Hb _ IH rest' E. apply (wrong_member_value D a q s b); auto.
  Qed.
  Theorem wrong_next k u c rest p : Wrong D k u (c :: rest) p -> ~ viable_value (u ++ [c]).
  Proof.
    intros Hw (t & v & Hv). rewrite <- app_assoc in Hv. cbn [app] in Hv. pose proof (proj1 wrong_head _ _ _ _ Hw (c :: t) eq_refl) as Hw'.
    set (s := u ++ c :: t) in *. pose proof (value_fails checks conv (S (length s)) k u (c :: t) p [] (iw_new s) Hw' (at_cursor_new s) ltac:(fold s; lia)) as F.
    destruct (take_value_complete checks conv (S (length s)) s v [] (iw_new s) Hv) as (st' & E & R); [now rewrite app_nil_r | split; apply stop_nil | cbn; lia |].
    destruct (reported k ([] ++ u) (c :: t) p) as [[v' r'] e]. destruct F as [F _]. rewrite E in F. discriminate.
  Qed.
  Lemma over_after u rest : over u rest <-> after_value u rest.
  Proof.
    split.
    - intros H. split; [| intros He]; intros c Hc; specialize (H c Hc).
      + destruct (is_ws c) eqn:E; [| reflexivity]. apply is_ws_iff in E. elim H. now left.
      + destruct (is_number_char c) eqn:E; [| reflexivity]. apply is_number_char_iff in E. elim H. now right.
    - intros [H1 H2] c Hc [Hi | [He Hi]]; [now apply (stop_blank rest c H1 Hc) |]. apply is_number_char_iff in Hi. rewrite (H2 He c Hc) in Hi. discriminate.
  Qed.
  Theorem over_next u v c rest : Padded D u v -> over u (c :: rest) -> ~ viable_value (u ++ [c]).
  Proof.
    intros Hu Ho (t & v' & Hv). rewrite <- app_assoc in Hv. cbn [app] in Hv. assert (Ho' : over u (c :: t)) by (intros d [= <-]; apply (Ho c eq_refl)). apply over_after in Ho'.
    set (s := u ++ c :: t) in *. destruct (value_yields checks conv (S (length s)) u v (c :: t) (iw_new s) Hu eq_refl Ho' ltac:(cbn; lia)) as (st1 & E1 & R1).
    destruct (take_value_complete checks conv (S (length s)) s v' [] (iw_new s) Hv) as (st' & E & R); [now rewrite app_nil_r | split; apply stop_nil | cbn; lia |].
    rewrite E in E1. injection E1 as _ ->. rewrite R in R1. discriminate.
  Qed.

  (** ** All the errors *)
  Theorem json_errors fuel s e : length s < fuel -> valid_text s ->
    (parse_json checks conv fuel s = Err e <->
     (exists k u rest p, s = u ++ rest /\ Wrong D k u rest p /\ e = PTake (snd (reported k u rest p))) \/
     (exists u v c rest, s = u ++ c :: rest /\ Padded D u v /\ over u (c :: rest) /\ e = InputContinues (place u (c :: rest)))).
  Proof.
    intros Hf HV. unfold parse_json, parse_with. split.
    - pose proof (value_wrong checks conv fuel (iw_new s)) as Hw. pose proof (take_value_good checks conv fuel (iw_new s) Hf HV) as G. unfold good in G.
      pose proof (value_after checks conv fuel (iw_new s)) as Ha. change (remaining (iw_new s)) with s in *.
      destruct (value_at fuel (iw_new s)) as [[v | e' | |] st'] eqn:E; cbn [fst snd] in *; try discriminate.
      + destruct G as (w & Ew & Hv). specialize (Ha st' v w Hf eq_refl Hv Ew). destruct (remaining st') as [| c r] eqn:R.
        { destruct (r_peek st') as (st1 & E1 & _). rewrite E1, R. discriminate. }
        intros X. right. exists w, v, c, r. split; [exact Ew |]. split; [exact Hv |]. split; [now apply over_after |].
        destruct (value_gives checks conv fuel w v [] (c :: r) (iw_new s) Hv) as (st2 & E2 & A2); [rewrite <- Ew; apply at_cursor_new | exact Ha | now rewrite <- Ew |].
        rewrite E in E2. injection E2 as <-. destruct (peek_to _ _ _ A2) as (st3 & E3 & A3). rewrite E3 in X. cbn [fst snd hd_error] in X. injection X as <-. unfold iw_pos. rewrite (proj2 A3). reflexivity.
      + destruct (Hw e' Hf HV eq_refl) as (k & u & rest & p & Es & W). intros [= <-]. left. exists k, u, rest, p. split; [exact Es |]. split; [exact W |].
        pose proof (value_fails checks conv fuel k u rest p [] (iw_new s) W) as F. rewrite <- Es in F. specialize (F (at_cursor_new s) Hf). rewrite E in F. cbn [app] in F. destruct (reported k u rest p) as [[v' r'] e1]. destruct F as [F _]. cbn [fst snd] in *. congruence.
    - intros [(k & u & rest & p & Es & W & ->) | (u & v & c & rest & Es & Hv & Ho & ->)].
      + pose proof (value_fails checks conv fuel k u rest p [] (iw_new s) W) as F. rewrite <- Es in F. specialize (F (at_cursor_new s) Hf). cbn [app] in F. destruct (value_at fuel (iw_new s)) as [o st']. destruct (reported k u rest p) as [[v' r'] e1]. destruct F as [F _]. cbn [fst snd] in *. now subst o.
      + apply over_after in Ho. destruct (value_gives checks conv fuel u v [] (c :: rest) (iw_new s) Hv) as (st2 & -> & A2); [rewrite <- Es; apply at_cursor_new | exact Ho | now rewrite <- Es |].
        destruct (peek_to _ _ _ A2) as (st3 & -> & A3). cbn [fst snd hd_error]. unfold iw_pos. rewrite (proj2 A3). reflexivity.
  Qed.
End Values.
