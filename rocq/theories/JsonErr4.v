(** * JsonErr4: errors of the hand-written JSON reader (4): what is said about
    a wrong text. *)
From Coq Require Import String ZArith.
From Verif Require Export JsonErr3.
From Coq Require Import List Lia.
Import ListNotations.
Open Scope list_scope.

Definition after_value (w r : rstr) : Prop := stop_at is_ws r /\ (ends_in_number w -> stop_at is_number_char r).
Lemma after_value_suffix w w' r : after_value (w ++ w') r -> after_value w' r.
Proof. intros [H1 H2]. split; [exact H1 |]. intros (w0 & x & -> & Hx). apply H2. exists (w ++ w0), x. now rewrite app_assoc. Qed.
Lemma after_value_char w c r : is_ws c = false -> is_number_char c = false -> after_value w (c :: r).
Proof. intros H1 H2. split; [now apply stop_cons | intros _; now apply stop_cons]. Qed.
Lemma FIRST_eq : FIRST = value_firsts. Proof. reflexivity. Qed.
Lemma FIRST_WS_eq : FIRST_WS = element_firsts. Proof. reflexivity. Qed.
Lemma next_not_stop (f : char -> bool) P r : next_not P r -> (forall c, f c = true -> P c) -> stop_at f r.
Proof. intros H HP c Hc. destruct (f c) eqn:E; [elim (H c Hc); auto | reflexivity]. Qed.

Section Values.
  Variable checks : bool.
  Context {num : Type}.
  Variable conv : rstr -> option num.
  Notation D := (hand conv).
  Notation value_at n := (take_value checks conv n).
  Notation member_at n := (take_member checks (take_value checks conv n) n).

  Lemma value_yields n w v r st : Padded D w v -> remaining st = w ++ r -> after_value w r -> length (remaining st) < n -> yields (value_at n st) v r.
  Proof.
    destruct n as [| n]; [lia |]. pose proof (take_value_complete checks conv n) as IH. intros Ht R [Hr1 Hr2] Hf. destruct Ht as [a w b v Ha Hv Hb]. rewrite <- !app_assoc in R.
    cbn [take_value]. destruct (take_head st a w (b ++ r) Ha (val_first conv w v Hv) R) as (st1 & -> & R1 & Hl).
    assert (Hl1 : length (w ++ b ++ r) <= n) by lia. clear Hf Hl R st Ha.
    eapply (then_yields _ v _ (b ++ r)); [| intros st2 R2; eexists; split; [reflexivity | now apply (r_skip_ok st2 b r R2 Hb), Hr1]].
    destruct Hv as [| | | w x [Hw Hx] | w s Hw | w -> | w l Hl | w -> | w l Hl].
    - now apply (keyword_yields (lit "null")); [repeat constructor |].
    - now apply (keyword_yields (lit "true")); [repeat constructor |].
    - now apply (keyword_yields (lit "false")); [repeat constructor |].
    - assert (Hs : stop_at is_number_char (b ++ r)). { destruct Hb as [| c b Hc _]; [| apply stop_cons; now apply ws_not_number]. apply Hr2. exists a, w. rewrite app_nil_r. auto. }
      clear Hr2. destruct Hw as [c w Hc Hw]. cbn [app hd_error] in *.
      assert (En : in_range 48 57 c || N.eqb c (chr "-") = true) by (apply orb_true_iff; destruct Hc as [Hc | ->]; [left; now apply in_range_iff | right; reflexivity]).
      assert (Hx3 : forall d, is_number_char d = false -> c <> d).
      { intros d Hd ->. destruct Hc as [Hc | ->]; [| discriminate Hd]. assert (is_number_char d = true) by (apply is_number_char_iff; left; exact Hc). congruence. }
      rewrite (proj2 (N.eqb_neq c (chr "n"))) by now apply Hx3. rewrite (proj2 (N.eqb_neq c (chr "t"))) by now apply Hx3. rewrite (proj2 (N.eqb_neq c (chr "f"))) by now apply Hx3. rewrite En.
      destruct (r_next st1) as (st2 & E2 & R2). rewrite E2. cbn [snd]. rewrite R1 in R2. cbn [tl] in R2. cbn [length] in Hl1.
      destruct (number_run_spec n [c] st2) as (w2 & r2 & A & B & C & Hy); [rewrite R2; lia |]. rewrite R2 in A.
      assert (Hw' : Forall (fun c => is_number_char c = true) w) by (eapply Forall_impl; [| exact Hw]; intros d; apply is_number_char_iff).
      destruct (span_exact is_number_char _ _ _ _ A Hw' Hs B C) as [<- <-].
      eapply then_yields; [exact Hy |]. intros st3 R3. cbn [app]. rewrite Hx. exists st3. auto.
    - destruct (quoted_first conv w s Hw) as (c & w' & E & [<- | []]). rewrite E at 1. cbn [app hd_error]. cbn [chr lit N.eqb Pos.eqb in_range N.leb orb andb hd map].
      change (in_range 48 57 34 || (34 =? chr "-")%N) with false. cbn iota.
      eapply then_yields; [apply (parse_str_complete checks conv w s (b ++ r) st1 n Hw R1); rewrite R1; exact Hl1 |]. intros st2 R2. exists st2. auto.
    - cbn [app hd_error]. cbn in Hl1. change (yields (then_ (consume_str [chr "["] st1) (fun _ st2 => then_ (iter_collect (take_value checks conv n) (chr ",") (chr "]") (lit ",]") FIRST_WS n st2) (fun l st3 => then_ (consume_str [chr "]"] st3) (fun _ st4 => (Ok (JArray l), st4))))) (JArray []) (b ++ r)).
      apply (brackets_yields _ (chr "[") (chr "]") JArray [] []); [repeat constructor | repeat constructor | exact R1 |]. intros st' R'. apply collect_empty; [lia | exact R'].
    - cbn [app hd_error]. cbn in Hl1. change (yields (then_ (consume_str [chr "["] st1) (fun _ st2 => then_ (iter_collect (take_value checks conv n) (chr ",") (chr "]") (lit ",]") FIRST_WS n st2) (fun l st3 => then_ (consume_str [chr "]"] st3) (fun _ st4 => (Ok (JArray l), st4))))) (JArray l) (b ++ r)).
      apply (brackets_yields _ (chr "[") (chr "]") JArray l w); [repeat constructor | repeat constructor | exact R1 |]. intros st' R'.
      assert (Hst' : length (remaining st') <= n - 1) by (rewrite R'; rewrite !app_length in *; cbn [length] in *; lia).
      apply (collect_complete (take_value checks conv n) (chr ",") (chr "]") (lit ",]") FIRST_WS (Padded D) (n - 1) first_no_stop ltac:(discriminate) ends) with (w := w); auto.
      + intros r'. now apply ends_char.
      + intros r'. now apply ends_char.
      + apply padded_first.
      + intros w1 v1 r1 st2 H1 H2 H3 H4. apply (IH w1 v1 r1 st2 H1 H2 H3). rewrite !app_length in Hl1. cbn [length] in Hl1. lia.
      + now apply elements_sepby.
      + lia.
    - cbn [app hd_error]. cbn in Hl1. change (yields (then_ (consume_str [chr "{"] st1) (fun _ st2 => then_ (iter_collect (take_member checks (take_value checks conv n) n) (chr ",") (chr "}") (lit ",}") ([34%N] ++ WS) n st2) (fun l st3 => then_ (consume_str [chr "}"] st3) (fun _ st4 => (Ok (JObject l), st4))))) (JObject []) (b ++ r)).
      apply (brackets_yields _ (chr "{") (chr "}") JObject [] []); [repeat constructor | repeat constructor | exact R1 |]. intros st' R'. apply collect_empty; [lia | exact R'].
    - cbn [app hd_error]. cbn in Hl1. change (yields (then_ (consume_str [chr "{"] st1) (fun _ st2 => then_ (iter_collect (take_member checks (take_value checks conv n) n) (chr ",") (chr "}") (lit ",}") ([34%N] ++ WS) n st2) (fun l st3 => then_ (consume_str [chr "}"] st3) (fun _ st4 => (Ok (JObject l), st4))))) (JObject l) (b ++ r)).
      apply (brackets_yields _ (chr "{") (chr "}") JObject l w); [repeat constructor | repeat constructor | exact R1 |]. intros st' R'.
      assert (Hst' : length (remaining st') <= n - 1) by (rewrite R'; rewrite !app_length in *; cbn [length] in *; lia).
      apply (collect_complete (take_member checks (take_value checks conv n) n) (chr ",") (chr "}") (lit ",}") ([34%N] ++ WS) (Member D) (n - 1) first_no_stop_obj ltac:(discriminate) ends) with (w := w); auto.
      + intros r'. now apply ends_char.
      + intros r'. now apply ends_char.
      + apply member_first.
      + intros w1 v1 r1 st2 H1 H2 H3 H4. apply (member_complete checks conv n IH w1 v1 r1 st2 H1 H2 H3). rewrite !app_length in Hl1. cbn [length] in Hl1. lia.
      + now apply members_sepby.
      + lia.
  Qed.
  Lemma value_gives n w x v r st : Padded D w x -> at_cursor v (w ++ r) st -> after_value w r -> length (w ++ r) < n -> gives_at (value_at n st) x (v ++ w) r.
  Proof.
    intros Hw H Ha Hl. apply gives_of; [apply (value_yields n w); auto; [apply H | rewrite (proj1 H); exact Hl] |]. destruct (at_self _ _ _ H) as [E A]. now apply (take_value_kept checks conv n v).
  Qed.
  Lemma str_gives n q s v r st : Quoted D q s -> at_cursor v (q ++ r) st -> length (q ++ r) <= n -> gives_at (parse_str checks n st) s (v ++ q) r.
  Proof.
    intros Hq H Hl. apply gives_of; [apply (parse_str_complete checks conv q s r st n Hq (proj1 H)); rewrite (proj1 H); exact Hl |]. destruct (at_self _ _ _ H) as [E A]. now apply (parse_str_kept checks n v).
  Qed.
  Lemma skip_gives v a r st : ws a -> at_cursor v (a ++ r) st -> stop_at is_ws r -> at_cursor (v ++ a) r (skip_ws st).
  Proof.
    intros Ha H Hs. pose proof (r_skip_ok st a r (proj1 H) Ha Hs) as R. destruct (at_self _ _ _ H) as [E A]. destruct (skip_kept _ _ A) as (a' & _ & A' & R' & _). rewrite R in *. rewrite (proj1 H) in R'. apply app_inv_tail in R'. now subst a'.
  Qed.
  Lemma member_gives n w m v r st : Member D w m -> at_cursor v (w ++ r) st -> after_value w r -> length (w ++ r) < n -> gives_at (member_at n st) m (v ++ w) r.
  Proof.
    intros [a q k b w' x Ha Hq Hb Hv] H Hr Hf. rewrite <- !app_assoc in H. unfold take_member.
    assert (A1 : at_cursor (v ++ a) (q ++ b ++ lit ":" ++ w' ++ r) (skip_ws st)). { apply skip_gives; [exact Ha | exact H |]. apply (stop_first is_ws [34%N]); [now apply quoted_first in Hq |]. intros c [<- | []]. reflexivity. }
    rewrite !app_length in Hf. destruct (str_gives n q k _ _ _ Hq A1) as (st1 & -> & A2); [rewrite !app_length; lia |]. unfold then_ at 1. cbn [fst snd].
    assert (A3 : at_cursor (((v ++ a) ++ q) ++ b) (lit ":" ++ w' ++ r) (skip_ws st1)) by (apply skip_gives; [exact Hb | exact A2 | now apply stop_cons]).
    destruct (consume_char (chr ":") _ _ _ A3) as [C1 C2]. change (consume_str (lit ":") (skip_ws st1)) with (consume_str [chr ":"] (skip_ws st1)). destruct (consume_str [chr ":"] (skip_ws st1)) as [o st4]. cbn [fst snd] in *. subst o. unfold then_ at 1. cbn [fst snd].
    destruct (value_gives n w' x _ r st4 Hv C2) as (st5 & -> & A5); [apply (after_value_suffix (a ++ q ++ b ++ lit ":")); rewrite <- !app_assoc; exact Hr | rewrite app_length; lia |]. unfold then_. cbn [fst snd]. exists st5. split; [reflexivity |]. rewrite <- !app_assoc in *. exact A5.
  Qed.

  (** ** Values that go wrong *)
  Lemma wrong_nil k u rest p : Wrong D k u rest p -> u = [] -> k = [] /\ p = Expect value_firsts.
  Proof.
    intros H E. destruct H as [a rest Ha Hn | a x y z rest Ha Hx Hy Hn | a u rest q Ha Hs | | | | | | | |]; auto; apply app_eq_nil in E as [_ E]; try discriminate E; [contradiction |]. destruct Hs; discriminate E.
  Qed.
  Lemma wrong_member_nil k u rest p : WrongMember D k u rest p -> u = [] -> k = [] /\ p = Word [] [quote].
  Proof.
    intros H E. destruct H as [a rest Ha Hn | a u rest q Ha Hs | a q s b rest Ha Hq Hb Hn | a q s b k' u rest p' Ha Hq Hb Hw]; auto; apply app_eq_nil in E as [_ E].
    - destruct Hs; discriminate E.
    - destruct Hq; discriminate E.
    - destruct Hq; discriminate E.
  Qed.
  Definition wrongs n : Prop := forall k u rest p v st, Wrong D k u rest p -> at_cursor v (u ++ rest) st -> length (u ++ rest) < n -> fails (value_at n st) (reported k (v ++ u) rest p).
  Lemma key_firsts c : In c member_firsts <-> c = quote \/ is_ws c = true.
  Proof. rewrite is_ws_iff. unfold member_firsts. cbn [In]. split; intros [H | H]; auto; left; congruence. Qed.
  Lemma string_head u rest p : WrongString D u rest p -> exists u', u = quote :: u'.
  Proof. intros []; eauto. Qed.
  Lemma member_fails n : wrongs n -> forall k u rest p v st, WrongMember D k u rest p -> at_cursor v (u ++ rest) st -> length (u ++ rest) < n -> fails (member_at n st) (reported k (v ++ u) rest p).
  Proof.
    intros IH k u rest p v st Hw H Hl. unfold take_member. destruct Hw as [a rest Ha Hn | a u rest p Ha Hs | a q s b rest Ha Hq Hb Hn | a q s b k u rest p Ha Hq Hb Hw]; rewrite <- ?app_assoc in H.
    - apply then_fails. unfold parse_str. apply then_fails. assert (Hs : stop_at is_ws rest) by (apply (next_not_stop _ _ _ Hn); intros c Hc; apply key_firsts; auto).
      pose proof (word_fails [] quote [] (v ++ a) rest (skip_ws st)) as F. cbn [app] in F. rewrite app_nil_r in F. apply F; [constructor | | now apply skip_gives]. intros c Hc <-. apply (Hn quote Hc), key_firsts. auto.
    - apply then_fails. cbn [reported fold_left]. rewrite app_assoc. apply (string_fails checks conv u rest p); [exact Hs | | rewrite !app_length in *; lia]. apply skip_gives; [exact Ha | exact H |]. destruct (string_head _ _ _ Hs) as [u' ->]. now apply stop_cons.
    - rewrite !app_length in Hl. eapply then_at; [apply (str_gives n q s (v ++ a) (b ++ rest)); [exact Hq | apply skip_gives; [exact Ha | exact H |] | rewrite !app_length; lia] |].
      { apply (stop_first is_ws [34%N]); [now apply quoted_first in Hq |]. intros c [<- | []]. reflexivity. }
      intros st1 A1. apply then_fails. pose proof (word_fails [] (chr ":") [] (((v ++ a) ++ q) ++ b) rest (skip_ws st1)) as F. cbn [app] in F. rewrite app_nil_r in F. cbn [reported fold_left].
      rewrite !app_assoc. apply F; [constructor | |]; clear F. { intros c Hc <-. apply (Hn _ Hc). now left. } apply skip_gives; [exact Hb | exact A1 |]. apply (next_not_stop _ _ _ Hn). intros c Hc. right. now apply is_ws_iff.
    - rewrite !app_length in Hl. eapply then_at; [apply (str_gives n q s (v ++ a) (b ++ lit ":" ++ u ++ rest)); [exact Hq | apply skip_gives; [exact Ha | exact H |] | rewrite !app_length; lia] |].
      { apply (stop_first is_ws [34%N]); [now apply quoted_first in Hq |]. intros c [<- | []]. reflexivity. }
      intros st1 A1. assert (A3 : at_cursor (((v ++ a) ++ q) ++ b) (lit ":" ++ u ++ rest) (skip_ws st1)) by (apply skip_gives; [exact Hb | exact A1 | now apply stop_cons]).
      destruct (consume_char (chr ":") _ _ _ A3) as [C1 C2]. change (consume_str (lit ":") (skip_ws st1)) with (consume_str [chr ":"] (skip_ws st1)). destruct (consume_str [chr ":"] (skip_ws st1)) as [o st4]. cbn [fst snd] in *. subst o. unfold then_ at 1. cbn [fst snd].
      apply then_fails. pose proof (IH k u rest p _ st4 Hw C2) as F. rewrite <- !app_assoc in F. apply F. rewrite app_length. lia.
  Qed.

  Lemma reported_snoc k c v rest p : reported (k ++ [c]) v rest p = passing c (reported k v rest p).
  Proof. unfold reported. now rewrite fold_left_app. Qed.
  Lemma brackets_fail {A} (item : iw -> res A take_error * iw) (o stop : char) (mk : list A -> value num) (P : rstr -> A -> Prop) (W : list char -> rstr -> rstr -> problem -> Prop) n v st k u rest p :
    chr "," <> stop -> ~ In stop (firsts_of stop) -> at_cursor v (o :: u ++ rest) st -> length (u ++ rest) < n ->
    is_ws stop = false -> (forall w x, P w x -> exists c w', w = c :: w' /\ In c (firsts_of stop)) ->
    (forall w x v r st, P w x -> at_cursor v (w ++ r) st -> after_value w r -> length (w ++ r) < n -> gives_at (item st) x (v ++ w) r) ->
    (forall k u rest p v st, W k u rest p -> at_cursor v (u ++ rest) st -> length (u ++ rest) < n -> fails (item st) (reported k (v ++ u) rest p)) ->
    (forall k u rest p, W k u rest p -> u = [] -> k = [] /\ (exists l, p = Expect l) \/ (k = [] /\ exists x y, p = Word x y)) ->
    ((exists k', k = k' ++ [stop] /\ W k' u rest p /\ hd_error (u ++ rest) <> Some stop)
     \/ (exists w l k' u', k = k' ++ [stop] /\ SepBy (chr ",") P w l /\ u = w ++ [chr ","] ++ u' /\ W k' u' rest p /\ exists c, hd_error (u' ++ rest) = Some c /\ In c (firsts_of stop))
     \/ (exists w l, k = [] /\ SepBy (chr ",") P w l /\ u = w ++ [chr ","] /\ next_not (fun c => In c (firsts_of stop)) rest /\ p = Expect (firsts_of stop))
     \/ (exists l, k = [] /\ SepBy (chr ",") P u l /\ next_not (fun c => In c [chr ","; stop]) rest /\ after_value u rest /\ p = Expect [chr ","; stop])) ->
    fails (then_ (consume_str [o] st) (fun _ st2 => then_ (iter_collect item (chr ",") stop [chr ","; stop] (firsts_of stop) n st2) (fun l st3 => then_ (consume_str [stop] st3) (fun _ st4 => (Ok (mk l), st4)))) : res (value num) take_error * iw)
      (reported k (v ++ [o] ++ u) rest p).
  Proof.
    intros Hss Hst H Hl Hws Hfi Hg Hw Hnil Hcases. destruct (consume_char o _ _ _ H) as [C1 C2]. destruct (consume_str [o] st) as [x st2]. cbn [fst snd] in *. subst x. unfold then_ at 1. cbn [fst snd]. rewrite app_assoc.
    assert (Has : forall w x r, P w x -> after_value w (chr "," :: r)) by (intros w x r _; now apply after_value_char).
    assert (Hg' : forall w x v r st, P w x -> at_cursor v (w ++ r) st -> after_value w r -> length (w ++ r) <= n - 1 -> gives_at (item st) x (v ++ w) r) by (intros w x v' r st' h1 h2 h3 h4; apply Hg; auto; lia).
    destruct Hcases as [(k' & -> & HW & Hh) | [(w & l & k' & u' & -> & Hw' & -> & HW & d & Hd & Hd') | [(w & l & -> & Hw' & -> & Hn & ->) | (l & -> & Hw' & Hn & Ha & ->)]]].
    - rewrite reported_snoc. destruct (u ++ rest) as [| c t] eqn:Et.
      + apply app_eq_nil in Et as [-> ->]. rewrite app_nil_r. assert (Er : passing stop (reported k' (v ++ [o]) [] p) = basic (v ++ [o]) [] (Word [] [stop])).
        { destruct (Hnil _ _ _ _ HW eq_refl) as [[-> [l ->]] | [-> (x & y & ->)]]; reflexivity. }
        rewrite Er. destruct n as [| n]; [cbn in Hl; lia |]. cbn [iter_collect]. unfold iter_next. destruct (peek_to _ _ _ C2) as (st3 & -> & A3). cbn [hd_error]. unfold then_ at 1. cbn [fst snd]. apply then_fails.
        pose proof (word_fails [] stop [] (v ++ [o]) [] st3) as F. cbn [app] in F. rewrite app_nil_r in F. apply F; [constructor | intros ? [=] | exact A3].
      + destruct n as [| n]; [cbn in Hl; lia |]. apply then_fails. apply (item_fails_passing item stop n (v ++ [o]) c t st2); [exact C2 | cbn [hd_error] in Hh; congruence |]. intros st' A'. apply Hw; [exact HW | now rewrite Et | now rewrite Et].
    - rewrite reported_snoc. rewrite <- !app_assoc in *. cbn [app] in *. apply then_fails. destruct (u' ++ rest) as [| c t] eqn:Et; [discriminate Hd |]. injection Hd as ->.
      apply (sep_then item stop Hss P after_value (n - 1) Has Hfi Hst Hg' w l Hw' n _ st2 (d :: t) d t _ eq_refl Hd' C2); [lia | lia |]. intros m st' Hm A'. destruct m as [| m]; [cbn in Hm; lia |].
      rewrite <- !app_assoc in *. cbn [app] in *. replace (v ++ o :: w ++ chr "," :: u') with ((v ++ o :: w ++ [chr ","]) ++ u') by (rewrite <- !app_assoc; cbn [app]; now rewrite <- app_assoc).
      apply (item_fails_passing item stop m _ d t st' _ A'); [intros ->; contradiction |]. intros st3 A3. apply Hw; [exact HW | now rewrite Et |]. rewrite Et. rewrite app_length in Hl. cbn [length] in *. lia.
    - rewrite <- !app_assoc in *. cbn [app] in *. apply then_fails. cbn [reported fold_left]. pose proof (sep_next_bad item stop Hss P after_value (n - 1) Has Hfi Hst Hg' w l Hw' n _ st2 rest Hn C2) as F. rewrite <- !app_assoc in F. cbn [app] in F. apply F; lia.
    - apply then_fails. cbn [reported fold_left]. apply (sep_bad item stop Hss P after_value (n - 1) Has after_value_suffix Hfi Hst Hg' u l Hw' n _ st2 rest Ha Hn C2); lia.
  Qed.

  Lemma head_at v a t st : ws a -> at_cursor v (a ++ t) st -> stop_at is_ws t -> exists st1, iw_peek (skip_ws st) = (hd_error t, st1) /\ at_cursor (v ++ a) t st1.
  Proof. intros Ha H Hs. apply peek_to. now apply skip_gives. Qed.
End Values.
