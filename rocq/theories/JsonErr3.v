(** * JsonErr3: errors of the hand-written JSON reader (3): lists and values. *)
From Coq Require Import String ZArith.
From Verif Require Export JsonErr2.
From Coq Require Import List Lia.
Import ListNotations.
Open Scope list_scope.

Lemma peek_to u r st : at_cursor u r st -> exists st1, iw_peek st = (hd_error r, st1) /\ at_cursor u r st1.
Proof. apply peek_as. Qed.
Lemma next_to u c r st : at_cursor u (c :: r) st -> at_cursor (u ++ [c]) r (snd (iw_next st)).
Proof. intros H. apply (next_at _ _ _ _ H). Qed.
Definition firsts_of (close : char) : list char := if N.eqb close (chr "]") then element_firsts else member_firsts.

Section Lists.
  Context {A : Type}.
  Variable item : iw -> res A take_error * iw.
  Variable stop : char.
  Let sep := chr ",".
  Let first := firsts_of stop.
  Let sset := [sep; stop].
  Hypothesis Hss : sep <> stop.
  Notation collect := (iter_collect item sep stop sset first).

  Lemma item_fails_passing n v c r st rep : at_cursor v (c :: r) st -> c <> stop -> (forall st', at_cursor v (c :: r) st' -> fails (item st') rep) ->
    fails (collect (S n) st) (passing stop rep).
  Proof.
    intros H Hc Hi. cbn [iter_collect]. unfold iter_next. destruct (peek_to _ _ _ H) as (st1 & -> & H1). cbn [hd_error]. rewrite (proj2 (N.eqb_neq c stop)) by exact Hc.
    specialize (Hi st1 H1). destruct (item st1) as [x st2]. destruct rep as [[v' rest] e]. unfold fails in Hi. cbn [fst snd] in Hi. destruct Hi as (-> & R & Ep).
    unfold passing. destruct rest as [| d rest].
    - destruct (peek_spec st2) as (P1 & P2 & P3). destruct (iw_peek st2) as [p st3]. cbn [fst snd] in *. rewrite R in *. cbn [hd_error] in P1. subst p. unfold fails. cbn [fst snd]. unfold iw_pos. rewrite P3, Ep. auto.
    - assert (A2 : at_cursor v' (d :: rest) st2) by (split; assumption). destruct (peek_to _ _ _ A2) as (st3 & -> & A3). cbn [hd_error]. fold sep. destruct (N.eqb_spec d sep) as [Ed | Hd].
      + cbv zeta. destruct (peek_to _ _ _ (next_to _ _ _ _ A3)) as (st5 & -> & A5). destruct rest as [| f rest]; cbn [hd_error].
        * unfold fails. cbn [fst snd]. unfold iw_pos. rewrite (proj2 A5). repeat split. apply A5.
        * fold (firsts_of stop). fold first. destruct (mem_char f first); unfold fails; cbn [fst snd]; unfold iw_pos; rewrite (proj2 A5); repeat split; apply A5.
      + destruct (N.eqb_spec d stop) as [Es | Hs]; unfold fails; cbn [fst snd]; unfold iw_pos; rewrite (proj2 A3); repeat split; apply A3.
  Qed.
  Lemma item_then_bad n v c r st u x rest : at_cursor v (c :: r) st -> c <> stop -> (forall st', at_cursor v (c :: r) st' -> gives_at (item st') x u rest) ->
    next_not (fun d => In d sset) rest -> fails (collect (S n) st) (basic u rest (Expect sset)).
  Proof.
    intros H Hc Hi Hn. cbn [iter_collect]. unfold iter_next. destruct (peek_to _ _ _ H) as (st1 & -> & H1). cbn [hd_error]. rewrite (proj2 (N.eqb_neq c stop)) by exact Hc.
    destruct (Hi st1 H1) as (st2 & -> & A2). destruct (peek_to _ _ _ A2) as (st3 & -> & A3). unfold basic. destruct rest as [| d rest]; cbn [hd_error].
    - unfold fails. cbn [fst snd]. unfold iw_pos. rewrite (proj2 A3). repeat split. apply A3.
    - destruct (N.eqb_spec d sep) as [-> | Hd]; [elim (Hn sep eq_refl); now left |]. destruct (N.eqb_spec d stop) as [-> | Hs]; [elim (Hn stop eq_refl); right; now left |].
      unfold fails; cbn [fst snd]; unfold iw_pos; rewrite (proj2 A3); repeat split; apply A3.
  Qed.
  Lemma item_sep_bad n v c r st u x rest : at_cursor v (c :: r) st -> c <> stop -> (forall st', at_cursor v (c :: r) st' -> gives_at (item st') x u (sep :: rest)) ->
    next_not (fun d => In d first) rest -> fails (collect (S n) st) (basic (u ++ [sep]) rest (Expect first)).
  Proof.
    intros H Hc Hi Hn. cbn [iter_collect]. unfold iter_next. destruct (peek_to _ _ _ H) as (st1 & -> & H1). cbn [hd_error]. rewrite (proj2 (N.eqb_neq c stop)) by exact Hc.
    destruct (Hi st1 H1) as (st2 & -> & A2). destruct (peek_to _ _ _ A2) as (st3 & -> & A3). cbn [hd_error]. rewrite N.eqb_refl. cbv zeta. destruct (peek_to _ _ _ (next_to _ _ _ _ A3)) as (st5 & -> & A5).
    unfold basic. destruct rest as [| d rest]; cbn [hd_error].
    - unfold fails. cbn [fst snd]. unfold iw_pos. rewrite (proj2 A5). repeat split. apply A5.
    - destruct (mem_char d first) eqn:Ed; [apply mem_char_In in Ed; now elim (Hn d eq_refl) |]. unfold fails; cbn [fst snd]; unfold iw_pos; rewrite (proj2 A5); repeat split; apply A5.
  Qed.
  Lemma item_step n v c r st u x d rest rep : at_cursor v (c :: r) st -> c <> stop -> (forall st', at_cursor v (c :: r) st' -> gives_at (item st') x u (sep :: d :: rest)) ->
    In d first -> (forall st', at_cursor (u ++ [sep]) (d :: rest) st' -> fails (collect n st') rep) -> fails (collect (S n) st) rep.
  Proof.
    intros H Hc Hi Hd Hf. cbn [iter_collect]. unfold iter_next. destruct (peek_to _ _ _ H) as (st1 & -> & H1). cbn [hd_error]. rewrite (proj2 (N.eqb_neq c stop)) by exact Hc.
    destruct (Hi st1 H1) as (st2 & -> & A2). destruct (peek_to _ _ _ A2) as (st3 & -> & A3). cbn [hd_error]. rewrite N.eqb_refl. cbv zeta. destruct (peek_to _ _ _ (next_to _ _ _ _ A3)) as (st5 & -> & A5). cbn [hd_error].
    apply mem_char_In in Hd. rewrite Hd. specialize (Hf st5 A5). destruct (collect n st5) as [y st6]. destruct rep as [[v' rest'] e]. unfold fails in *. cbn [fst snd] in *. destruct Hf as (-> & Hf). split; [reflexivity | exact Hf].
  Qed.

  Variable P : rstr -> A -> Prop.
  Variable after : rstr -> rstr -> Prop.
  Variable b : nat.
  Hypothesis after_sep : forall w v r, P w v -> after w (sep :: r).
  Hypothesis after_suffix : forall w w' r, after (w ++ w') r -> after w' r.
  Hypothesis P_first : forall w v, P w v -> exists c w', w = c :: w' /\ In c first.
  Hypothesis Hstop : ~ In stop first.
  Hypothesis item_gives : forall w x v r st, P w x -> at_cursor v (w ++ r) st -> after w r -> length (w ++ r) <= b -> gives_at (item st) x (v ++ w) r.
  Lemma sepby_firsts w l : SepBy sep P w l -> exists c w', w = c :: w' /\ In c first.
  Proof. intros [w0 x Hw | w0 x w' l' Hw Hl]; destruct (P_first _ _ Hw) as (c & w1 & -> & Hc); eauto. exists c, (w1 ++ [sep] ++ w'). auto. Qed.
  Lemma first_step w x r d rest v st n rep : P w x -> r = d :: rest -> In d first -> at_cursor v (w ++ sep :: r) st -> length (w ++ sep :: r) <= b ->
    (forall st', at_cursor (v ++ w ++ [sep]) r st' -> fails (collect n st') rep) -> fails (collect (S n) st) rep.
  Proof.
    intros Hw -> Hd H Hb Hf. destruct (P_first _ _ Hw) as (c & w' & Ew & Hc). assert (Hcs : c <> stop) by (intros ->; contradiction).
    assert (H' : at_cursor v (c :: w' ++ sep :: d :: rest) st) by (rewrite Ew in H; exact H). apply (item_step n _ _ _ _ (v ++ w) x d rest _ H' Hcs); [| exact Hd | intros st' A'; apply Hf; now rewrite app_assoc].
    intros st' A'. apply item_gives; [exact Hw | rewrite Ew; exact A' | eapply after_sep; exact Hw | exact Hb].
  Qed.
  (** Whatever goes wrong after some items and a comma. *)
  Lemma sep_then w l : SepBy sep P w l -> forall n v st r d rest rep, r = d :: rest -> In d first -> at_cursor v (w ++ sep :: r) st -> length (w ++ sep :: r) <= b -> length (w ++ sep :: r) <= n ->
    (forall m st', length r <= m -> at_cursor (v ++ w ++ [sep]) r st' -> fails (collect m st') rep) -> fails (collect n st) rep.
  Proof.
    induction 1 as [w x Hw | w x w' l Hw Hl IH]; intros n v st r d rest rep Er Hd H Hb Hn Hf.
    - destruct n as [| n]; [rewrite app_length in Hn; cbn in Hn; lia |]. apply (first_step w x r d rest v); auto. intros st' A'. apply Hf; [| exact A']. rewrite app_length in Hn. cbn [length] in Hn. destruct (P_first _ _ Hw) as (c & w1 & -> & _). cbn [length] in Hn. lia.
    - destruct n as [| n]; [rewrite !app_length in Hn; cbn in Hn; lia |]. rewrite <- !app_assoc in *. cbn [app] in *. destruct (sepby_firsts _ _ Hl) as (c & w1 & Ew & Hc).
      apply (first_step w x (w' ++ sep :: r) c (w1 ++ sep :: r) v); auto; [now rewrite Ew |]. intros st' A'. rewrite !app_length in *. cbn [length] in *. rewrite !app_length in *. cbn [length] in *.
      apply (IH n (v ++ w ++ [sep]) st' r d rest rep Er Hd A'); rewrite ?app_length; cbn [length]; [lia | lia |]. intros m st2 Hm A2. apply Hf; [exact Hm |]. rewrite <- !app_assoc in A2. exact A2.
  Qed.
  Lemma sep_bad w l : SepBy sep P w l -> forall n v st r, after w r -> next_not (fun d => In d sset) r -> at_cursor v (w ++ r) st -> length (w ++ r) <= b -> length (w ++ r) <= n ->
    fails (collect n st) (basic (v ++ w) r (Expect sset)).
  Proof.
    induction 1 as [w x Hw | w x w' l Hw Hl IH]; intros n v st r Ha Hr H Hb Hn.
    - destruct (P_first _ _ Hw) as (c & w1 & Ew & Hc). destruct n as [| n]; [rewrite Ew in Hn; cbn in Hn; lia |].
      apply (item_then_bad n v c (w1 ++ r) st (v ++ w) x r); [rewrite Ew in H; exact H | intros ->; contradiction | | exact Hr]. intros st' A'. apply item_gives; [exact Hw | rewrite Ew; exact A' | exact Ha | exact Hb].
    - destruct n as [| n]; [rewrite !app_length in Hn; cbn in Hn; lia |]. rewrite <- !app_assoc in *. cbn [app] in *. destruct (sepby_firsts _ _ Hl) as (c & w1 & Ew & Hc).
      apply (first_step w x (w' ++ r) c (w1 ++ r) v); auto; [now rewrite Ew |]. intros st' A'. rewrite !app_length in *. cbn [length] in *. rewrite !app_length in *.
      pose proof (IH n (v ++ w ++ [sep]) st' r) as F. rewrite <- !app_assoc in F. cbn [app] in F. apply F; auto; rewrite ?app_length; [| lia | lia]. apply (after_suffix (w ++ [sep])). rewrite <- app_assoc. exact Ha.
  Qed.
  Lemma sep_next_bad w l : SepBy sep P w l -> forall n v st r, next_not (fun d => In d first) r -> at_cursor v (w ++ sep :: r) st -> length (w ++ sep :: r) <= b -> length (w ++ sep :: r) <= n ->
    fails (collect n st) (basic (v ++ w ++ [sep]) r (Expect first)).
  Proof.
    induction 1 as [w x Hw | w x w' l Hw Hl IH]; intros n v st r Hr H Hb Hn.
    - destruct (P_first _ _ Hw) as (c & w1 & Ew & Hc). destruct n as [| n]; [rewrite Ew in Hn; cbn in Hn; lia |]. rewrite app_assoc.
      apply (item_sep_bad n v c (w1 ++ sep :: r) st (v ++ w) x r); [rewrite Ew in H; exact H | intros ->; contradiction | | exact Hr]. intros st' A'. apply item_gives; [exact Hw | rewrite Ew; exact A' | eapply after_sep; exact Hw | exact Hb].
    - destruct n as [| n]; [rewrite !app_length in Hn; cbn in Hn; lia |]. rewrite <- !app_assoc in *. cbn [app] in *. destruct (sepby_firsts _ _ Hl) as (c & w1 & Ew & Hc).
      apply (first_step w x (w' ++ sep :: r) c (w1 ++ sep :: r) v); auto; [now rewrite Ew |]. intros st' A'. rewrite !app_length in *. cbn [length] in *. rewrite !app_length in *. cbn [length] in *.
      pose proof (IH n (v ++ w ++ [sep]) st' r) as F. rewrite <- !app_assoc in F. cbn [app] in F. apply F; auto; rewrite ?app_length; cbn [length]; lia.
  Qed.
End Lists.
