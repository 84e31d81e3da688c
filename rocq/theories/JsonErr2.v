(** * JsonErr2: errors of the hand-written JSON reader (2): strings, words and
    lists. *)
From Coq Require Import String ZArith.
From Verif Require Export JsonErr ArithFacts.
From Coq Require Import List Lia.
Import ListNotations.
Open Scope list_scope.

Lemma place_spec v rest : place v rest = spec_pos v (hd_error rest).
Proof. reflexivity. Qed.
(** [fails x r]: the error and the state after it. *)
Definition fails {A} (x : res A take_error * iw) (r : report) : Prop :=
  let '(v, rest, e) := r in
  fst x = Err e /\ remaining (snd x) = rest /\ ipos (snd x) = match rest with [] => terr_pos e | _ :: _ => place v rest end.
Lemma then_fails {A B} (x : res A take_error * iw) (f : A -> iw -> res B take_error * iw) r : fails x r -> fails (then_ x f) r.
Proof. destruct r as [[v rest] e]. unfold fails, then_. intros (E & H). rewrite E. cbn [fst snd]. auto. Qed.
Definition gives_at {A} (x : res A take_error * iw) (v : A) (u r : rstr) : Prop := exists st', x = (Ok v, st') /\ at_cursor u r st'.
Lemma gives_of {A} (x : res A take_error * iw) v u w r : yields x v r -> kept x (u ++ w ++ r) -> gives_at x v (u ++ w) r.
Proof.
  intros (st' & -> & R) K. unfold kept in K. cbn [fst snd] in K. destruct K as (u' & E & Ac). exists st'. split; [reflexivity |]. rewrite R in E, Ac. rewrite app_assoc in E. apply app_inv_tail in E. now rewrite E.
Qed.
Lemma then_at {A B} (x : res A take_error * iw) (f : A -> iw -> res B take_error * iw) v u r rep :
  gives_at x v u r -> (forall st', at_cursor u r st' -> fails (f v st') rep) -> fails (then_ x f) rep.
Proof. intros (st' & -> & A1) H. unfold then_. cbn [fst snd]. now apply H. Qed.
Lemma at_self u r st : at_cursor u r st -> u ++ r = u ++ remaining st /\ at_cursor u (remaining st) st.
Proof. intros H. split; [now rewrite (proj1 H) | now apply (at_remaining u r)]. Qed.

(** ** Words *)
Lemma lcp_stop x y z rest : next_not (eq y) rest -> lcp (x ++ y :: z) (x ++ rest) = x.
Proof.
  intros H. induction x as [| c x IH]; cbn [app lcp]; [| now rewrite N.eqb_refl, IH]. destruct rest as [| d rest]; [reflexivity |]. destruct (N.eqb_spec y d) as [-> | _]; [elim (H d eq_refl); reflexivity | reflexivity].
Qed.
Lemma word_fails x y z v rest st : ascii_text x -> next_not (eq y) rest -> at_cursor v (x ++ rest) st ->
  fails (consume_str (x ++ y :: z) st) (basic (v ++ x) rest (Word x (x ++ y :: z))).
Proof.
  intros Ha Hn H. pose proof (consume_loop_spec (x ++ y :: z) (x ++ y :: z) 0 _ _ _ H) as P. cbv zeta in P. rewrite (lcp_stop _ _ z _ Hn) in P. destruct P as (r' & E & P). apply app_inv_head in E. subst r'.
  unfold consume_str. destruct (consume_loop _ _ 0 st) as [o st']. destruct P as [P1 P2].
  assert (Hl : Nat.eqb (length x) (length (x ++ y :: z)) = false) by (apply Nat.eqb_neq; rewrite app_length; cbn; lia). rewrite Hl in P2.
  unfold basic, fails. destruct rest as [| c rest]; cbn [fst snd].
  - subst o. unfold iw_pos. rewrite (proj2 P1). repeat split; apply P1.
  - assert (Hb : byte_prefix (x ++ y :: z) (0 + length x) = Some x).
    { cbn [Nat.add]. rewrite byte_prefix_ascii; rewrite ?app_length; [| lia |]; rewrite firstn_app, firstn_all, Nat.sub_diag; cbn [firstn]; rewrite app_nil_r; [reflexivity | exact Ha]. }
    rewrite Hb in P2. subst o. unfold iw_pos. rewrite (proj2 P1). repeat split; apply P1.
Qed.

(** ** Strings *)
Lemma hex_stop h rest : Forall hex_digit h -> length h < 4 -> next_not hex_digit rest -> firstn 4 (prefix_while (fun c => mem_char c HEX) (h ++ rest)) = h.
Proof.
  intros Hh Hl Hn. assert (E : prefix_while (fun c => mem_char c HEX) (h ++ rest) = h).
  { induction Hh as [| c h Hc _ IH]; cbn [app prefix_while].
    - destruct rest as [| d rest]; [reflexivity |]. cbn [prefix_while]. destruct (mem_char d HEX) eqn:E; [| reflexivity]. apply mem_char_In, HEX_iff in E. now elim (Hn d eq_refl).
    - apply HEX_iff, mem_char_In in Hc. rewrite Hc. cbn [length] in Hl. rewrite IH by lia. reflexivity. }
  rewrite E. apply firstn_all2. lia.
Qed.
Section Strings.
  Variable checks : bool.
  Context {num : Type}.
  Variable conv : rstr -> option num.
  Notation D := (hand conv).
  Lemma u16_fails h rest v st : Forall hex_digit h -> length h < 4 -> next_not hex_digit rest -> at_cursor v (h ++ rest) st -> fails (parse_u16 checks st) (basic (v ++ h) rest HexDigit).
  Proof.
    intros Hh Hl Hn H. unfold parse_u16. apply then_fails. pose proof (take_chars_spec HEX 4 _ _ _ H) as P. cbv zeta in P. rewrite (hex_stop _ _ Hh Hl Hn) in P. destruct (take_chars_from HEX 4 st) as [x st'].
    rewrite (proj2 (Nat.eqb_neq _ _)) in P by lia. rewrite skipn_app, skipn_all, Nat.sub_diag in P. cbn [skipn app] in P. unfold basic, fails. destruct rest as [| c rest]; cbn [fst snd].
    - destruct P as (-> & R & Ep). unfold iw_pos in *. replace (late_pos _ 1) with (one_later (place (v ++ h) [])) in Ep by (unfold late_pos, one_later, place, spec_pos; cbn [line col hd_error]; f_equal; lia). rewrite Ep. auto.
    - destruct P as (-> & _ & A). rewrite app_assoc in A. unfold iw_pos. rewrite (proj2 A). split; [reflexivity |]. split; [apply A |]. now destruct rest.
  Qed.
  Lemma str_loop_chars_at w s : Chars D w s -> forall fuel s0 u st r, at_cursor u (w ++ r) st -> length w < fuel ->
    exists n st', n <= length w /\ at_cursor (u ++ w) r st' /\ str_loop checks fuel s0 st = str_loop checks (fuel - n) (s0 ++ s) st'.
  Proof.
    assert (Next : forall u c r st, at_cursor u (c :: r) st -> exists st1, iw_next st = (Some c, st1) /\ at_cursor (u ++ [c]) r st1).
    { intros u c r st H. destruct (next_at _ _ _ _ H) as [N1 N2]. destruct (iw_next st) as [x st1]. cbn [fst snd] in *. subst x. eauto. }
    induction 1 as [| c w s Hc _ IH | e c w s He _ IH | h c w s Hu _ IH]; intros fuel s0 u st r R Hf.
    - exists 0, st. cbn. rewrite Nat.sub_0_r, !app_nil_r. auto.
    - destruct fuel as [| n]; [lia |]. cbn [str_loop]. cbn [app] in R. destruct (Next _ _ _ _ R) as (st1 & -> & R1). cbn [length] in Hf.
      destruct (N.eqb_spec c 34) as [-> | _]; [destruct Hc as (_ & Hc & _); now elim Hc |]. apply is_plain_iff in Hc. rewrite Hc.
      destruct (IH n (s0 ++ [c]) (u ++ [c]) st1 r R1) as (m & st' & Hm & R' & E); [lia |]. exists (S m), st'. rewrite E. rewrite <- !app_assoc in *. cbn [app length] in *. split; [lia |]. auto.
    - destruct fuel as [| n]; [lia |]. cbn [str_loop]. cbn [app] in R. destruct (Next _ _ _ _ R) as (st1 & -> & R1). cbn [length] in Hf.
      cbn [N.eqb]. change (is_plain backslash) with false. cbn [backslash N.eqb Pos.eqb]. destruct (parse_escape_arm checks e (w ++ r) st1 (proj1 R1)) as (H1 & _).
      destruct (at_self _ _ _ R1) as [Es As]. pose proof (escape_kept checks _ st1 _ Es As) as K. change (e :: w ++ r) with ([e] ++ w ++ r) in K.
      destruct (gives_of _ _ _ _ _ (H1 c He) K) as (st2 & E2 & R2). rewrite E2.
      unfold then_. cbn [fst snd]. destruct (IH n (s0 ++ [c]) _ st2 r R2) as (m & st' & Hm & R' & E); [lia |]. exists (S m), st'. rewrite E. rewrite <- !app_assoc in *. cbn [app length] in *. split; [lia |]. auto.
    - destruct fuel as [| n]; [lia |]. cbn [str_loop]. cbn [app] in R. destruct (Next _ _ _ _ R) as (st1 & -> & R1). cbn [length] in Hf. rewrite app_length in Hf.
      change (is_plain backslash) with false. cbn [backslash N.eqb Pos.eqb]. destruct Hu as [Hu ->]. rewrite <- app_assoc in R1.
      destruct (parse_escape_arm checks _ _ st1 (proj1 R1)) as (_ & H2 & _). destruct (H2 eq_refl) as (st2 & R2 & E2).
      destruct (at_self _ _ _ R1) as [Es As]. pose proof (escape_kept checks _ st1 _ Es As) as K. change (chr "u" :: h ++ w ++ r) with ((chr "u" :: h) ++ w ++ r) in K.
      assert (Y : yields (parse_escape checks st1) 0%N (w ++ r)) by (rewrite E2; now apply (unicode_yields checks h)).
      destruct (gives_of _ _ _ _ _ Y K) as (st3 & E3 & R3). rewrite E3. unfold then_. cbn [fst snd].
      destruct (IH n (s0 ++ [0%N]) _ st3 r R3) as (m & st' & Hm & R' & E); [lia |]. exists (S m), st'. rewrite E. rewrite <- !app_assoc in *. cbn [app length] in *. rewrite ?app_length. split; [lia |]. auto.
  Qed.
  Lemma next_end u st : at_cursor u [] st -> exists st1, iw_next st = (None, st1) /\ remaining st1 = [] /\ iw_pos st1 = one_later (place u []).
  Proof.
    intros H. destruct (next_eof st (proj1 H)) as (N1 & N2 & N3). destruct (iw_next st) as [x st1]. cbn [fst snd] in *. subst x. exists st1. repeat split; [exact N2 |]. unfold iw_pos. rewrite N3, (proj2 H). reflexivity.
  Qed.
  Lemma string_fails u rest p v st fuel : WrongString D u rest p -> at_cursor v (u ++ rest) st -> length (u ++ rest) <= fuel -> fails (parse_str checks fuel st) (basic (v ++ u) rest p).
  Proof.
    assert (Go : forall w s r, Chars D w s -> at_cursor v (quote :: w ++ r) st -> length w < fuel -> forall rep,
      (forall m s' st', 0 < m -> at_cursor (v ++ quote :: w) r st' -> fails (str_loop checks m s' st') rep) -> fails (parse_str checks fuel st) rep).
    { intros w s r Hw H Hf rep Hr. unfold parse_str. destruct (consume_char 34%N _ _ _ H) as [C1 C2]. destruct (consume_str [34%N] st) as [o st1]. cbn [fst snd] in *. subst o. unfold then_. cbn [fst snd].
      destruct (str_loop_chars_at w s Hw fuel [] _ st1 r C2 Hf) as (n & st' & Hn & A & ->). apply Hr; [lia |]. rewrite <- app_assoc in A. exact A. }
    intros Hw H Hf. destruct Hw as [w s Hw | w s Hw | w s h rest Hw Hh Hl Hn].
    - rewrite app_nil_r in *. cbn [length] in Hf. apply (Go w s [] Hw); [now rewrite app_nil_r | lia |]. intros [| m] s' st' Hm A; [lia |]. cbn [str_loop]. destruct (next_end _ _ A) as (st1 & -> & R & Ep). unfold basic, fails. cbn [fst snd]. rewrite Ep. repeat split; [exact R | exact Ep].
    - rewrite app_nil_r in *. cbn [length] in Hf. rewrite app_length in Hf. cbn [length] in Hf. apply (Go w s [backslash] Hw); [exact H | lia |]. intros [| m] s' st' Hm A; [lia |]. cbn [str_loop].
      destruct (next_at _ _ _ _ A) as [N1 N2]. destruct (iw_next st') as [x st1]. cbn [fst snd] in *. subst x. change (is_plain backslash) with false. cbn [backslash N.eqb Pos.eqb]. apply then_fails. unfold parse_escape.
      destruct (next_end _ _ N2) as (st2 & -> & R & Ep). unfold basic, fails. cbn [fst snd]. rewrite <- app_assoc in Ep. cbn [app] in Ep. rewrite Ep. repeat split; [exact R | exact Ep].
    - cbn [app length] in *. rewrite <- !app_assoc in *. rewrite !app_length in Hf. cbn [length app] in *. rewrite ?app_length in Hf. apply (Go w s _ Hw H); [lia |]. intros [| m] s' st' Hm A; [lia |]. cbn [str_loop].
      destruct (next_at _ _ _ _ A) as [N1 N2]. destruct (iw_next st') as [x st1]. cbn [fst snd] in *. subst x. change (is_plain backslash) with false. cbn [backslash N.eqb Pos.eqb]. apply then_fails. unfold parse_escape.
      destruct (next_at _ _ _ _ N2) as [M1 M2]. destruct (iw_next st1) as [x st2]. cbn [fst snd] in *. subst x. cbn [chr lit map hd N.eqb Pos.eqb].
      change (chr "u") with 117%N in *. cbn [N.eqb Pos.eqb]. apply then_fails. pose proof (u16_fails h rest _ _ Hh Hl Hn M2) as F. rewrite <- !app_assoc in F. exact F.
  Qed.
End Strings.
