(** * JsonErr7: when the hand-written JSON reader fails, the text is wrong. *)
From Coq Require Import String Arith Lia.
From Verif Require Import Runtime RuntimeFacts Json SpecJson JsonFacts JsonRead SpecJsonError JsonErr JsonErr2 JsonErr3 JsonErr4 JsonErr5 JsonErr6.
From Coq Require Import List NArith.
Import ListNotations.
Open Scope list_scope.

Lemma blank_is_ws c : In c blanks -> is_ws c = true.
Proof. intros [<- | [<- | [<- | [<- | []]]]]; reflexivity. Qed.
Lemma stop_blank r c : stop_at is_ws r -> hd_error r = Some c -> ~ In c blanks.
Proof. intros H Hc Hi. apply blank_is_ws in Hi. rewrite (H c Hc) in Hi. discriminate. Qed.

Section Values.
  Variable checks : bool.
  Context {num : Type}.
  Variable conv : rstr -> option num.
  Notation D := (hand conv).
  Notation value_at n := (take_value checks conv n).
  Notation member_at n := (take_member checks (take_value checks conv n) n).

  Lemma member_read n st : length (remaining st) < n -> valid_text (remaining st) ->
    match member_at n st with
    | (Ok m, st') => exists w, Member D w m /\ remaining st = w ++ remaining st' /\ after_value w (remaining st')
    | (Err _, _) => (exists a q b w, ws a /\ (exists s, Quoted D q s) /\ ws b /\ remaining st = a ++ q ++ b ++ lit ":" ++ w /\ exists st4 e, remaining st4 = w /\ fst (value_at n st4) = Err e)
        \/ exists u rest p, remaining st = u ++ rest /\ WrongMember D [] u rest p
    | _ => True
    end.
  Proof.
    intros Hf HV. unfold take_member. destruct (r_skip st) as (a & r1 & R & Ha & Hstop & R1). rewrite R in *. rewrite app_length in Hf. apply valid_app in HV.
    pose proof (parse_str_good checks conv n (skip_ws st)) as Hs. pose proof (str_wrong checks conv n (skip_ws st)) as He. rewrite R1 in Hs, He. specialize (Hs ltac:(lia) HV). unfold good in Hs.
    destruct (parse_str checks n (skip_ws st)) as [[k | e | |] st1]; unfold then_; cbn [fst snd] in *; try exact Logic.I.
    - destruct Hs as (q & Eq & Hq). destruct (r_skip st1) as (b & r2 & R2 & Hb & Hstop2 & R3).
      destruct (r_consume (lit ":") (skip_ws st1)) as [(r4 & st4 & A & -> & C) | [Hn (e & st' & ->)]]; [repeat constructor | cbn [fst snd] |].
      + rewrite R3 in A. subst r4. assert (Hr : r2 = lit ":" ++ remaining st4) by exact A. rewrite Eq, R2, Hr in *.
        assert (L : length (remaining st4) < n) by (rewrite !app_length in Hf; lia).
        pose proof HV as HV4. apply valid_app, valid_app, valid_app in HV4.
        pose proof (take_value_good checks conv n st4 L HV4) as G. unfold good in G. destruct (value_at n st4) as [[v | e | |] st5] eqn:E5; cbn [fst snd] in *; try exact Logic.I.
        * destruct G as (w & Ew & Hw). exists (a ++ q ++ b ++ lit ":" ++ w). split; [now constructor |]. split; [rewrite Ew; now rewrite <- !app_assoc |].
          destruct (value_after checks conv n st4 st5 v w L E5 Hw Ew) as [X Y]. split; [exact X |]. intros Z. apply Y. rewrite !app_assoc in Z. rewrite <- app_assoc in Z. now apply ends_split in Z.
        * left. exists a, q, b, (remaining st4). split; [exact Ha |]. split; [now exists k |]. split; [exact Hb |]. split; [reflexivity |]. exists st4, e. now rewrite E5.
      + right. exists (a ++ q ++ b), r2, (Word [] (lit ":")). split; [rewrite Eq, R2; now rewrite <- !app_assoc |]. apply (wrong_colon D a q k b); [exact Ha | exact Hq | exact Hb |].
        intros c Hc Hi. apply in_app_or in Hi as [[<- | []] | Hi]; [| now apply (stop_blank r2 c Hstop2 Hc)]. rewrite R3 in Hn. destruct r2 as [| d r2]; [discriminate Hc |]. injection Hc as ->. now apply (Hn r2).
    - right. destruct (He e eq_refl) as [(u & rest & p & E & Hw) | Hn].
      + exists (a ++ u), rest, p. split; [rewrite E; apply app_assoc |]. now apply wrong_key_string.
      + exists a, r1, (Word [] [quote]). split; [reflexivity |]. apply wrong_key; [exact Ha |]. intros c Hc [<- | Hi]; [now apply (Hn quote Hc) | now apply (stop_blank r1 c Hstop Hc)].
  Qed.
  Definition found (r : rstr) : Prop := exists k u rest p, r = u ++ rest /\ Wrong D k u rest p.
  Definition found_member (r : rstr) : Prop := exists k u rest p, r = u ++ rest /\ WrongMember D k u rest p.
  Lemma member_found n st e : (forall st e, length (remaining st) < n -> valid_text (remaining st) -> fst (value_at n st) = Err e -> found (remaining st)) ->
    length (remaining st) < n -> valid_text (remaining st) -> fst (member_at n st) = Err e -> found_member (remaining st).
  Proof.
    intros IH Hf HV. pose proof (member_read n st Hf HV) as M. destruct (member_at n st) as [[m | e' | |] st']; cbn [fst]; try discriminate. intros _.
    destruct M as [(a & q & b & w & Ha & [s Hq] & Hb & E & (st4 & e4 & R4 & E4)) | (u & rest & p & E & Hw)]; [| now exists [], u, rest, p].
    rewrite E in Hf, HV. subst w. destruct (IH st4 e4) as (k & u & rest & p & E5 & Hw); [rewrite !app_length in Hf; lia | now apply valid_app, valid_app, valid_app, valid_app in HV | exact E4 |].
    exists k, (a ++ q ++ b ++ lit ":" ++ u), rest, p. split; [rewrite E, E5; now rewrite <- !app_assoc |]. now apply (wrong_member_value D a q s b).
  Qed.
  Lemma keyword_found st1 a c r t v e : ws a -> remaining st1 = c :: r -> ascii_text t -> In t [lit "null"; lit "true"; lit "false"] -> hd_error t = Some c ->
    fst (then_ (consume_str t st1) (fun _ st2 => (@Ok (value num) take_error v, st2))) = Err e -> found (a ++ c :: r).
  Proof.
    intros Ha R Hs Ht Hc. destruct (r_consume t st1 Hs) as [(r' & st' & A & -> & C) | [Hn (e' & st' & ->)]]; unfold then_; cbn [fst snd]; [discriminate | intros _].
    rewrite R in Hn. destruct (word_wrong t (c :: r) Hn) as (x & y & z & rest & Et & Er & Hy). exists [], (a ++ x), rest, (Word x (x ++ y :: z)). split; [rewrite Er; apply app_assoc |].
    apply wrong_word; [exact Ha | now rewrite <- Et | | exact Hy]. intros ->. cbn [app] in *. rewrite Et in Hc. injection Hc as ->. apply (Hy c); [now rewrite <- Er | reflexivity].
  Qed.
  Lemma list_close {A} (item : iw -> res A take_error * iw) (stop : char) n st (mk : list A -> value num) (P : rstr -> A -> Prop) (Q : rstr -> Prop) e :
    ~ In stop (firsts_of stop) -> chr "," <> stop -> (stop < 128)%N ->
    (forall st, length (remaining st) <= n - 1 -> valid_text (remaining st) -> good P Q (item st) (remaining st)) ->
    length (remaining st) < n -> valid_text (remaining st) ->
    fst (then_ (iter_collect item (chr ",") stop [chr ","; stop] (firsts_of stop) n st) (fun l st3 => then_ (consume_str [stop] st3) (fun _ st4 => (@Ok (value num) take_error (mk l), st4)))) = Err e ->
    remaining st = [] \/ fst (iter_collect item (chr ",") stop [chr ","; stop] (firsts_of stop) n st) = Err e.
  Proof.
    intros N1 N2 N3 Hi Hf HV. pose proof (collect_sound item (chr ",") stop [chr ","; stop] (firsts_of stop) P Q (n - 1) N1 N2 valid_text valid_app Hi n st Hf ltac:(lia) HV) as Hc. cbn zeta in Hc.
    destruct (iter_collect item (chr ",") stop [chr ","; stop] (firsts_of stop) n st) as [[l | e' | |] st3]; unfold then_; cbn [fst snd] in *; try discriminate; [| intros [= ->]; now right].
    assert (Hs : hd_error (remaining st3) = Some stop -> forall e1, fst (consume_str [stop] st3) <> Err e1).
    { intros H e1. destruct (r_consume [stop] st3) as [(r4 & st4 & A' & -> & C) | [Hn _]]; [constructor; [exact N3 | constructor] | discriminate |]. destruct (remaining st3) as [| d r] eqn:R; [discriminate H |]. injection H as ->. now elim (Hn r). }
    destruct Hc as [(-> & E & [X | X]) | (w & E & Hl & X)]; [now left | rewrite <- E in X |]; specialize (Hs X); destruct (consume_str [stop] st3) as [[u | e1 | |] st5]; cbn [fst snd] in *; try discriminate; now elim (Hs e1).
  Qed.
  Theorem value_wrong : forall n st e, length (remaining st) < n -> valid_text (remaining st) -> fst (value_at n st) = Err e -> found (remaining st).
  Proof.
    induction n as [| n IH]; intros st e Hf HV; [lia |]. cbn [take_value].
    destruct (r_skip st) as (a & r & R & Ha & Hstop & R0). destruct (r_peek (skip_ws st)) as (st1 & -> & R1). rewrite R0 in *.
    match goal with |- fst (then_ ?x _) = _ -> _ => set (out := x) end.
    intros Hout. assert (Ho : fst out = Err e) by (destruct out as [[v | e' | |] st2]; unfold then_ in Hout; cbn [fst snd] in *; try discriminate; exact Hout). clear Hout. revert Ho. unfold out. clear out.
    rewrite R in Hf, HV |- *. rewrite app_length in Hf. apply valid_app in HV.
    assert (Bad : next_not (fun c => In c element_firsts) r -> found (a ++ r)). { intros Hn. exists [], a, r, (Expect value_firsts). split; [reflexivity |]. now apply wrong_value. }
    destruct r as [| c r]; cbn [hd_error]. { intros _. apply Bad. intros ? [=]. }
    cbn [length] in Hf.
    destruct (N.eqb_spec c (chr "n")) as [-> | N1]. { apply (keyword_found st1 a (chr "n") r); [exact Ha | exact R1 | repeat constructor | cbn; auto | reflexivity]. }
    destruct (N.eqb_spec c (chr "t")) as [-> | N2]. { apply (keyword_found st1 a (chr "t") r); [exact Ha | exact R1 | repeat constructor | cbn; auto | reflexivity]. }
    destruct (N.eqb_spec c (chr "f")) as [-> | N3]. { apply (keyword_found st1 a (chr "f") r); [exact Ha | exact R1 | repeat constructor | cbn; auto | reflexivity]. }
    destruct (in_range 48 57 c || N.eqb c (chr "-")) eqn:En.
    { destruct (r_next st1) as (st2 & E2 & R2). rewrite E2. cbn [snd]. rewrite R1 in R2. cbn [tl] in R2.
      destruct (number_run_spec n [c] st2) as (w & r' & A & B & C & (st3 & -> & R3)); [rewrite R2; lia |]. unfold then_. cbn [fst snd]. destruct (option_map JNumber (conv ([c] ++ w))); discriminate. }
    destruct (N.eqb_spec c 34) as [-> | N4].
    { pose proof (str_wrong checks conv n st1) as Hs. destruct (parse_str checks n st1) as [[s | e' | |] st2]; unfold then_; cbn [fst snd] in *; try discriminate. intros _.
      rewrite R1 in Hs. destruct (Hs e' eq_refl) as [(u & rest & p & E & Hw) | Hn]; [| now elim (Hn 34%N eq_refl)].
      exists [], (a ++ u), rest, p. split; [rewrite E; apply app_assoc |]. now apply wrong_string. }
    pose proof HV as HV0. apply Forall_cons_iff in HV as [_ HV].
    assert (EmptyV : Wrong D [] [] [] (Expect value_firsts)) by (apply wrong_value; [constructor | intros ? [=]]).
    destruct (N.eqb_spec c (chr "[")) as [-> | N5].
    { destruct (r_consume_ok (lit "[") st1 r) as (st2 & -> & R2); [repeat constructor | exact R1 |]. unfold then_ at 1. cbn [fst snd].
      assert (Hi : forall st, length (remaining st) <= n - 1 -> valid_text (remaining st) -> good (Padded D) (Doomed D (unreadable conv)) (value_at n st) (remaining st)) by (intros st' H1 H2; destruct n; [cbn [length] in *; lia | apply take_value_good; [lia | exact H2]]).
      intros Ho. destruct (list_close (value_at n) (chr "]") n st2 JArray _ _ e first_no_stop ltac:(discriminate) ltac:(reflexivity) Hi ltac:(rewrite R2; lia) ltac:(rewrite R2; exact HV) Ho) as [X | X]; [rewrite R2 in X |].
      { rewrite X. exists (lit "]"), (a ++ lit "["), [], (Expect value_firsts). split; [symmetry; apply app_nil_r |]. apply (wrong_element D a [] [] [] _ Ha EmptyV). discriminate. }
      assert (LW : list_wrong (chr "]") (Padded D) (Wrong D) (remaining st2)).
      { apply (collect_wrong (value_at n) (chr "]") (Padded D) _ (Wrong D) valid_text (n - 1) valid_app Hi) with (fuel := n) (e := e); [| | rewrite R2; lia | now rewrite R2 | exact X].
        - intros st' e' H1 H2. apply IH; [lia | exact H2].
        - intros st' st'' v' w' H1 HV' H2 H3 H4. apply (value_after checks conv n st' st'' v'); auto. lia. }
      rewrite R2 in LW. destruct LW as [(k & u & rest & p & E & Hw & Hh) | [(w & l & k & u & rest & p & d & Hl & E & Hw & Hd & Hd') | [(w & l & rest & Hl & E & Hn) | (w & l & rest & Hl & E & Hn & Hat)]]]; rewrite E.
      - exists (k ++ lit "]"), (a ++ lit "[" ++ u), rest, p. split; [rewrite <- !app_assoc; reflexivity |]. apply wrong_element; [exact Ha | exact Hw | now rewrite <- E].
      - exists (k ++ lit "]"), (a ++ lit "[" ++ w ++ lit "," ++ u), rest, p. split; [rewrite <- !app_assoc; reflexivity |]. apply (wrong_elements D a w l); [exact Ha | now apply elements_sepby | exact Hw | now exists d].
      - exists [], (a ++ lit "[" ++ w ++ lit ","), rest, (Expect element_firsts). split; [rewrite <- !app_assoc; reflexivity |]. apply (wrong_element_next D a w l); [exact Ha | now apply elements_sepby | exact Hn].
      - exists [], (a ++ lit "[" ++ w), rest, (Expect (lit ",]")). split; [rewrite <- !app_assoc; reflexivity |]. apply (wrong_element_end D a w l); [exact Ha | now apply elements_sepby |].
        intros d Hd [Hi' | [He Hi']]; [| apply is_number_char_iff in Hi'; rewrite (proj2 Hat He d Hd) in Hi'; discriminate]. apply in_app_or in Hi' as [Hi' | Hi']; [now apply (Hn d Hd) | now apply (stop_blank rest d (proj1 Hat) Hd)]. }
    destruct (N.eqb_spec c (chr "{")) as [-> | N6].
    { destruct (r_consume_ok (lit "{") st1 r) as (st2 & -> & R2); [repeat constructor | exact R1 |]. unfold then_ at 1. cbn [fst snd].
      assert (Hi : forall st, length (remaining st) <= n - 1 -> valid_text (remaining st) -> good (Member D) (DoomedMember D (unreadable conv)) (member_at n st) (remaining st)) by (intros st' H1 H2; apply member_good; [now apply take_value_good | lia | exact H2]).
      intros Ho. destruct (list_close (member_at n) (chr "}") n st2 JObject _ _ e first_no_stop_obj ltac:(discriminate) ltac:(reflexivity) Hi ltac:(rewrite R2; lia) ltac:(rewrite R2; exact HV) Ho) as [X | X]; [rewrite R2 in X |].
      { rewrite X. exists (lit "}"), (a ++ lit "{"), [], (Word [] [quote]). split; [symmetry; apply app_nil_r |]. apply (wrong_member_first D a [] [] [] _ Ha); [apply wrong_key; [constructor | intros ? [=]] | discriminate]. }
      assert (LW : list_wrong (chr "}") (Member D) (WrongMember D) (remaining st2)).
      { apply (collect_wrong (member_at n) (chr "}") (Member D) _ (WrongMember D) valid_text (n - 1) valid_app Hi) with (fuel := n) (e := e); [| | rewrite R2; lia | now rewrite R2 | exact X].
        - intros st' e' H1 H2. apply (member_found n); [exact IH | lia | exact H2].
        - intros st' st'' m w' H1 HV' H2 H3 H4. pose proof (member_read n st' ltac:(lia) HV') as M. rewrite H2 in M. destruct M as (w2 & _ & E2 & Hat). rewrite H4 in E2. apply app_inv_tail in E2. now subst w2. }
      rewrite R2 in LW. destruct LW as [(k & u & rest & p & E & Hw & Hh) | [(w & l & k & u & rest & p & d & Hl & E & Hw & Hd & Hd') | [(w & l & rest & Hl & E & Hn) | (w & l & rest & Hl & E & Hn & Hat)]]]; rewrite E.
      - exists (k ++ lit "}"), (a ++ lit "{" ++ u), rest, p. split; [rewrite <- !app_assoc; reflexivity |]. apply wrong_member_first; [exact Ha | exact Hw | now rewrite <- E].
      - exists (k ++ lit "}"), (a ++ lit "{" ++ w ++ lit "," ++ u), rest, p. split; [rewrite <- !app_assoc; reflexivity |]. apply (wrong_members D a w l); [exact Ha | now apply members_sepby | exact Hw | now exists d].
      - exists [], (a ++ lit "{" ++ w ++ lit ","), rest, (Expect member_firsts). split; [rewrite <- !app_assoc; reflexivity |]. apply (wrong_member_next D a w l); [exact Ha | now apply members_sepby | exact Hn].
      - exists [], (a ++ lit "{" ++ w), rest, (Expect (lit ",}")). split; [rewrite <- !app_assoc; reflexivity |]. apply (wrong_member_end D a w l); [exact Ha | now apply members_sepby |].
        intros d Hd [Hi' | [He Hi']]; [| apply is_number_char_iff in Hi'; rewrite (proj2 Hat He d Hd) in Hi'; discriminate]. apply in_app_or in Hi' as [Hi' | Hi']; [now apply (Hn d Hd) | now apply (stop_blank rest d (proj1 Hat) Hd)]. }
    intros _. apply Bad. intros d [= <-] Hi. apply in_app_or in Hi as [Hi | Hi]; [| now apply (stop_blank (c :: r) c Hstop eq_refl)]. apply orb_false_iff in En as [En1 En2]. apply N.eqb_neq in En2.
    cbn in Hi. repeat (destruct Hi as [<- | Hi]; [first [now elim N1 | now elim N2 | now elim N3 | now elim N4 | now elim N5 | now elim N6 | now elim En2 | discriminate En1] |]). contradiction.
  Qed.
End Values.
