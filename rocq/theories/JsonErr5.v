(** * JsonErr5: errors of the hand-written JSON reader (5). *)
From Coq Require Import String ZArith.
From Verif Require Export JsonErr4.
From Coq Require Import List Lia.
Import ListNotations.
Open Scope list_scope.

Section Values.
  Variable checks : bool.
  Context {num : Type}.
  Variable conv : rstr -> option num.
  Notation D := (hand conv).
  Notation value_at n := (take_value checks conv n).
  Notation member_at n := (take_member checks (take_value checks conv n) n).

  Lemma firsts_stop c r : next_not (fun c => In c element_firsts) r -> hd_error r = Some c -> is_ws c = false /\ ~ In c FIRST.
  Proof.
    intros H E. specialize (H c E). unfold element_firsts in H. rewrite in_app_iff in H. split; [| intros X; apply H; now left]. destruct (is_ws c) eqn:Ew; [| reflexivity]. apply is_ws_iff in Ew. elim H. now right.
  Qed.
  Lemma not_first c : ~ In c FIRST -> N.eqb c (chr "n") = false /\ N.eqb c (chr "t") = false /\ N.eqb c (chr "f") = false /\ in_range 48 57 c || N.eqb c (chr "-") = false /\
    N.eqb c 34 = false /\ N.eqb c (chr "[") = false /\ N.eqb c (chr "{") = false.
  Proof.
    intros H. assert (K : forall d, mem_char d FIRST = true -> N.eqb c d = false) by (intros d Hd; apply N.eqb_neq; intros ->; apply H; now apply mem_char_In).
    assert (K4 : in_range 48 57 c || N.eqb c (chr "-") = false). { destruct (in_range 48 57 c || N.eqb c (chr "-")) eqn:E; [| reflexivity]. elim H. apply digit_first. apply orb_true_iff in E as [E | E]; [left; now apply in_range_iff | right; now apply N.eqb_eq]. }
    repeat split; auto.
  Qed.
  Lemma firsts_char c F : In c FIRST -> In c (F ++ FIRST).
  Proof. intros H. apply in_app_iff. now right. Qed.

  Theorem value_fails : forall n, wrongs checks conv n.
  Proof.
    induction n as [| n IH]; intros k u rest p v st Hw H Hl; [lia |]. cbn [take_value].
    assert (Arr : forall a k' u', ws a -> at_cursor v ((a ++ lit "[" ++ u') ++ rest) st -> length ((a ++ lit "[" ++ u') ++ rest) < S n ->
      ((exists k1, k' = k1 ++ [chr "]"] /\ Wrong D k1 u' rest p /\ hd_error (u' ++ rest) <> Some (chr "]"))
       \/ (exists w l k1 u1, k' = k1 ++ [chr "]"] /\ SepBy (chr ",") (Padded D) w l /\ u' = w ++ [chr ","] ++ u1 /\ Wrong D k1 u1 rest p /\ exists c, hd_error (u1 ++ rest) = Some c /\ In c (firsts_of (chr "]")))
       \/ (exists w l, k' = [] /\ SepBy (chr ",") (Padded D) w l /\ u' = w ++ [chr ","] /\ next_not (fun c => In c (firsts_of (chr "]"))) rest /\ p = Expect (firsts_of (chr "]")))
       \/ (exists l, k' = [] /\ SepBy (chr ",") (Padded D) u' l /\ next_not (fun c => In c [chr ","; chr "]"]) rest /\ after_value u' rest /\ p = Expect [chr ","; chr "]"])) ->
      fails (value_at (S n) st) (reported k' (v ++ a ++ lit "[" ++ u') rest p)).
    { intros a k' u' Ha H' Hl' Hc. cbn [take_value]. rewrite <- !app_assoc in H'. destruct (head_at v a _ st Ha H') as (st1 & -> & A1); [now apply stop_cons |]. rewrite <- !app_assoc, !app_length in Hl'. change (length (lit "[")) with 1 in Hl'.
      change (lit "[" ++ u' ++ rest) with (chr "[" :: u' ++ rest) in *. cbn [hd_error]. apply then_fails.
      change (fails (then_ (consume_str [chr "["] st1) (fun _ st2 => then_ (iter_collect (value_at n) (chr ",") (chr "]") [chr ","; chr "]"] (firsts_of (chr "]")) n st2) (fun l st3 => then_ (consume_str [chr "]"] st3) (fun _ st4 => (Ok (JArray l), st4))))) (reported k' (v ++ a ++ [chr "["] ++ u') rest p)).
      rewrite app_assoc. apply (brackets_fail (value_at n) (chr "[") (chr "]") JArray (Padded D) (Wrong D)); auto.
      - discriminate.
      - apply first_no_stop.
      - rewrite app_length. lia.
      - intros w x Hx. now apply padded_first in Hx.
      - intros w x v' r st' h1 h2 h3 h4. now apply value_gives.
      - intros k1 u1 rest1 p1 H1 H2. left. destruct (wrong_nil conv _ _ _ _ H1 H2) as [-> ->]. eauto. }
    assert (Obj : forall a k' u', ws a -> at_cursor v ((a ++ lit "{" ++ u') ++ rest) st -> length ((a ++ lit "{" ++ u') ++ rest) < S n ->
      ((exists k1, k' = k1 ++ [chr "}"] /\ WrongMember D k1 u' rest p /\ hd_error (u' ++ rest) <> Some (chr "}"))
       \/ (exists w l k1 u1, k' = k1 ++ [chr "}"] /\ SepBy (chr ",") (Member D) w l /\ u' = w ++ [chr ","] ++ u1 /\ WrongMember D k1 u1 rest p /\ exists c, hd_error (u1 ++ rest) = Some c /\ In c (firsts_of (chr "}")))
       \/ (exists w l, k' = [] /\ SepBy (chr ",") (Member D) w l /\ u' = w ++ [chr ","] /\ next_not (fun c => In c (firsts_of (chr "}"))) rest /\ p = Expect (firsts_of (chr "}")))
       \/ (exists l, k' = [] /\ SepBy (chr ",") (Member D) u' l /\ next_not (fun c => In c [chr ","; chr "}"]) rest /\ after_value u' rest /\ p = Expect [chr ","; chr "}"])) ->
      fails (value_at (S n) st) (reported k' (v ++ a ++ lit "{" ++ u') rest p)).
    { intros a k' u' Ha H' Hl' Hc. cbn [take_value]. rewrite <- !app_assoc in H'. destruct (head_at v a _ st Ha H') as (st1 & -> & A1); [now apply stop_cons |]. rewrite <- !app_assoc, !app_length in Hl'. change (length (lit "{")) with 1 in Hl'.
      change (lit "{" ++ u' ++ rest) with (chr "{" :: u' ++ rest) in *. cbn [hd_error]. apply then_fails.
      change (fails (then_ (consume_str [chr "{"] st1) (fun _ st2 => then_ (iter_collect (member_at n) (chr ",") (chr "}") [chr ","; chr "}"] (firsts_of (chr "}")) n st2) (fun l st3 => then_ (consume_str [chr "}"] st3) (fun _ st4 => (Ok (JObject l), st4))))) (reported k' (v ++ a ++ [chr "{"] ++ u') rest p)).
      rewrite app_assoc. apply (brackets_fail (member_at n) (chr "{") (chr "}") JObject (Member D) (WrongMember D)); auto.
      - discriminate.
      - apply first_no_stop_obj.
      - rewrite app_length. lia.
      - intros w x Hx. now apply member_first in Hx.
      - intros w x v' r st' h1 h2 h3 h4. now apply member_gives.
      - intros k1 u1 rest1 p1 v1 st' h1 h2 h3. now apply member_fails.
      - intros k1 u1 rest1 p1 H1 H2. right. destruct (wrong_member_nil conv _ _ _ _ H1 H2) as [-> ->]. eauto. }
    assert (Rev : forall (a w : rstr) o, a ++ o ++ w ++ lit "," = a ++ o ++ (w ++ [chr ","])) by reflexivity.
    destruct Hw as [a rest Ha Hn | a x y z rest Ha Hx Hx0 Hn | a u rest p Ha Hs | a k u rest p Ha Hw Hh | a w l k u rest p Ha Hw Hu Hh | a w l rest Ha Hw Hn | a w l rest Ha Hw Hn
      | a k u rest p Ha Hw Hh | a w l k u rest p Ha Hw Hu Hh | a w l rest Ha Hw Hn | a w l rest Ha Hw Hn].
    - destruct (head_at v a rest st Ha H) as (st1 & -> & A1); [intros c Hc; now apply (firsts_stop c rest Hn) |]. apply then_fails. cbn [reported fold_left]. unfold basic. destruct rest as [| c rest]; cbn [hd_error].
      + unfold fails. cbn [fst snd]. unfold iw_pos. rewrite (proj2 A1). repeat split. apply A1.
      + destruct (firsts_stop c _ Hn eq_refl) as [_ Hc]. destruct (not_first c Hc) as (-> & -> & -> & -> & -> & -> & ->). unfold fails. cbn [fst snd]. unfold iw_pos. rewrite (proj2 A1). repeat split; apply A1.
    - rewrite <- app_assoc in H. assert (X : exists c x', x = c :: x' /\ In c (lit "ntf")).
      { destruct x as [| c x']; [congruence |]. exists c, x'. split; [reflexivity |]. cbn [app In] in Hx. destruct Hx as [Hx | [Hx | [Hx | []]]]; injection Hx as <- _; cbn; auto. }
      assert (Hax : ascii_text x). { assert (Q : ascii_text (x ++ y :: z)) by (destruct Hx as [<- | [<- | [<- | []]]]; repeat constructor). now apply Forall_app in Q. }
      destruct (head_at v a (x ++ rest) st Ha H) as (st1 & -> & A1). { destruct X as (c & x' & -> & Hc). apply stop_cons. destruct Hc as [<- | [<- | [<- | []]]]; reflexivity. }
      apply then_fails. cbn [reported fold_left]. rewrite app_assoc. pose proof (word_fails x y z (v ++ a) rest st1 Hax Hn A1) as F.
      destruct X as (c & x' & Ex & _). rewrite Ex at 1. cbn [app hd_error].
      assert (Hw : (c = chr "n" /\ x ++ y :: z = lit "null") \/ (c = chr "t" /\ x ++ y :: z = lit "true") \/ (c = chr "f" /\ x ++ y :: z = lit "false")).
      { destruct Hx as [E | [E | [E | []]]]; rewrite <- E; subst x; cbn [app] in E; injection E as <- _; auto. }
      destruct Hw as [[-> Ew] | [[-> Ew] | [-> Ew]]]; rewrite Ew in *.
      + change (fails (then_ (consume_str (lit "null") st1) (fun _ st2 => (Ok (JNull : value num), st2))) (basic ((v ++ a) ++ x) rest (Word x (lit "null")))). now apply then_fails.
      + change (fails (then_ (consume_str (lit "true") st1) (fun _ st2 => (Ok (JBool true : value num), st2))) (basic ((v ++ a) ++ x) rest (Word x (lit "true")))). now apply then_fails.
      + change (fails (then_ (consume_str (lit "false") st1) (fun _ st2 => (Ok (JBool false : value num), st2))) (basic ((v ++ a) ++ x) rest (Word x (lit "false")))). now apply then_fails.
    - rewrite <- app_assoc in H. destruct (string_head conv _ _ _ Hs) as [u' Eu]. destruct (head_at v a (u ++ rest) st Ha H) as (st1 & -> & A1); [rewrite Eu; now apply stop_cons |]. apply then_fails. rewrite Eu at 1. cbn [app hd_error].
      change (fails (then_ (parse_str checks n st1) (fun s st2 => (Ok (JString s : value num), st2))) (basic (v ++ a ++ u) rest p)). apply then_fails. rewrite app_assoc. apply (string_fails checks conv u rest p); [exact Hs | exact A1 |]. rewrite <- app_assoc, app_length in Hl. lia.
    - apply Arr; auto. left. exists k. auto.
    - apply Arr; auto. right. left. exists w, l, k, u. rewrite <- elements_sepby. auto.
    - apply Arr; auto. right. right. left. exists w, l. rewrite <- elements_sepby. auto.
    - apply Arr; auto. right. right. right. exists l. rewrite <- elements_sepby. split; [reflexivity |]. split; [exact Hw |]. split; [intros c Hc [X | [X | []]]; apply (Hn c Hc); left; apply in_app_iff; left; [left; exact X | right; left; exact X] |]. split; [| reflexivity].
      split; [apply (next_not_stop _ _ _ Hn); intros c Hc; left; apply in_app_iff; right; now apply is_ws_iff |]. intros E. apply (next_not_stop _ _ _ Hn). intros c Hc. right. split; [exact E | now apply is_number_char_iff].
    - apply Obj; auto. left. exists k. auto.
    - apply Obj; auto. right. left. exists w, l, k, u. rewrite <- members_sepby. auto.
    - apply Obj; auto. right. right. left. exists w, l. rewrite <- members_sepby. auto.
    - apply Obj; auto. right. right. right. exists l. rewrite <- members_sepby. split; [reflexivity |]. split; [exact Hw |]. split; [intros c Hc [X | [X | []]]; apply (Hn c Hc); left; apply in_app_iff; left; [left; exact X | right; left; exact X] |]. split; [| reflexivity].
      split; [apply (next_not_stop _ _ _ Hn); intros c Hc; left; apply in_app_iff; right; now apply is_ws_iff |]. intros E. apply (next_not_stop _ _ _ Hn). intros c Hc. right. split; [exact E | now apply is_number_char_iff].
  Qed.
End Values.
