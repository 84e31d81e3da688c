(** * JsonErr6: errors of the hand-written JSON reader (6): whenever there is
    one, the text is wrong. *)
From Coq Require Import String ZArith.
From Verif Require Export JsonErr5.
From Coq Require Import List Lia.
Import ListNotations.
Open Scope list_scope.

Lemma number_run_chars x : number_run_text x -> Forall (fun c => is_number_char c = true) x.
Proof.
  intros [c w Hc Hw]. constructor; [| eapply Forall_impl; [| exact Hw]; intros d; apply is_number_char_iff]. apply is_number_char_iff. destruct Hc as [Hc | ->]; [now left |]. right. cbn. auto.
Qed.
Lemma suffix_number (P : char -> Prop) w c w' x w0 : w ++ c :: w' = w0 ++ x -> Forall P x -> ~ P c -> exists w1, w' = w1 ++ x.
Proof.
  revert w0. induction w as [| d w IH]; intros [| e w0] E Hx Hc; cbn [app] in E.
  - subst x. inversion Hx. contradiction.
  - injection E as <- ->. eauto.
  - subst x. exfalso. inversion Hx as [| ? ? _ Hx']; subst. apply Forall_app in Hx' as [_ Hx']. inversion Hx'. contradiction.
  - injection E as <- E. eapply IH; eauto.
Qed.
Lemma ends_split w c w' : is_number_char c = false -> ends_in_number (w ++ c :: w') -> ends_in_number w'.
Proof.
  intros Hc (w0 & x & E & Hx). destruct (suffix_number _ _ _ _ _ _ E (number_run_chars x Hx)) as [w1 ->]; [congruence |]. exists w1, x. auto.
Qed.
Lemma ends_last w c : ends_in_number (w ++ [c]) -> is_number_char c = true.
Proof.
  intros (w0 & x & E & Hx). apply number_run_chars in Hx as Hc. destruct x as [| d x] using rev_ind; [inversion Hx |]. rewrite app_assoc in E. apply app_inj_tail in E as [_ <-]. apply Forall_app in Hc as [_ Hc]. now inversion Hc.
Qed.
Lemma ends_pad a w : ws a -> w <> [] -> ends_in_number (a ++ w) -> ends_in_number w \/ exists c w', w = c :: w' /\ (digit c \/ c = chr "-").
Proof.
  intros Ha Hw E. induction Ha as [| c a Hc _ IH]; [now left |]. apply IH. change ((c :: a) ++ w) with ([] ++ c :: a ++ w) in E. apply ends_split in E; [exact E |]. now apply ws_not_number.
Qed.
Lemma hex_wrong r : (forall u r', hex4 u -> r <> u ++ r') -> exists h rest, r = h ++ rest /\ Forall hex_digit h /\ length h < 4 /\ next_not hex_digit rest.
Proof.
  assert (K : forall r, exists h rest, r = h ++ rest /\ Forall hex_digit h /\ next_not hex_digit rest).
  { induction r0 as [| c r0 (h & rest & -> & H1 & H2)]; [exists [], []; repeat split; auto; intros c [=] |].
    destruct (mem_char c HEX) eqn:E; [apply mem_char_In, HEX_iff in E; exists (c :: h), rest; repeat split; auto |].
    exists [], (c :: h ++ rest). repeat split; auto. intros d [= <-] X. apply HEX_iff, mem_char_In in X. congruence. }
  intros H. destruct (K r) as (h & rest & -> & H1 & H2). exists h, rest. repeat split; auto. destruct (Compare_dec.le_lt_dec 4 (length h)) as [L | L]; [| exact L].
  exfalso. apply (H (firstn 4 h) (skipn 4 h ++ rest)); [| now rewrite app_assoc, firstn_skipn]. split; [rewrite firstn_length; lia |]. rewrite <- (firstn_skipn 4 h) in H1. now apply Forall_app in H1.
Qed.
Lemma word_wrong (t r : rstr) : (forall r', r <> t ++ r') -> exists x y z rest, t = x ++ y :: z /\ r = x ++ rest /\ next_not (eq y) rest.
Proof.
  revert r. induction t as [| c t IH]; intros r H; [elim (H r eq_refl) |]. destruct r as [| d r]; [exists [], c, t, []; repeat split; intros ? [=] |].
  destruct (N.eq_dec c d) as [<- | Hd].
  - destruct (IH r) as (x & y & z & rest & -> & -> & Hn); [intros r' ->; now apply (H r') |]. exists (c :: x), y, z, rest. auto.
  - exists [], c, t, (d :: r). repeat split. intros e [= <-]. exact Hd.
Qed.

Section Lists.
  Context {A : Type}.
  Variable item : iw -> res A take_error * iw.
  Variables (stop : char) (P : rstr -> A -> Prop) (Q : rstr -> Prop) (W : list char -> rstr -> rstr -> problem -> Prop) (V : rstr -> Prop) (b : nat).
  Let sep := chr ",".
  Let first := firsts_of stop.
  Hypothesis Vapp : forall w r, V (w ++ r) -> V r.
  Hypothesis Hgood : forall st, length (remaining st) <= b -> V (remaining st) -> good P Q (item st) (remaining st).
  Hypothesis Herr : forall st e, length (remaining st) <= b -> V (remaining st) -> fst (item st) = Err e -> exists k u rest p, remaining st = u ++ rest /\ W k u rest p.
  Hypothesis Hafter : forall st st' v w, length (remaining st) <= b -> V (remaining st) -> item st = (Ok v, st') -> P w v -> remaining st = w ++ remaining st' -> after_value w (remaining st').
  Definition list_wrong (r : rstr) : Prop :=
    (exists k u rest p, r = u ++ rest /\ W k u rest p /\ hd_error r <> Some stop)
    \/ (exists w l k u rest p c, SepBy sep P w l /\ r = w ++ [sep] ++ u ++ rest /\ W k u rest p /\ hd_error (u ++ rest) = Some c /\ In c first)
    \/ (exists w l rest, SepBy sep P w l /\ r = w ++ [sep] ++ rest /\ next_not (fun c => In c first) rest)
    \/ (exists w l rest, SepBy sep P w l /\ r = w ++ rest /\ next_not (fun c => In c [sep; stop]) rest /\ after_value w rest).
  Lemma collect_wrong : forall fuel st e, length (remaining st) <= b -> V (remaining st) -> fst (iter_collect item sep stop [sep; stop] first fuel st) = Err e -> list_wrong (remaining st).
  Proof.
    induction fuel as [| n IH]; intros st e Hb HV; [discriminate |]. cbn [iter_collect]. unfold iter_next. destruct (r_peek st) as (st1 & -> & R1). destruct (hd_error (remaining st)) as [c |] eqn:Hc; [| discriminate]. destruct (N.eqb_spec c stop) as [-> | Hcs]; [discriminate |].
    rewrite <- R1 in Hb, HV. specialize (Hgood st1 Hb HV). pose proof (Herr st1) as He. pose proof (Hafter st1) as Ha. rewrite <- R1 in Hc |- *. destruct (item st1) as [y st2]. unfold good in Hgood. cbn [fst snd] in *. destruct y as [v | e' | |]; try discriminate.
    - destruct Hgood as (w & Ew & Hw). specialize (Ha st2 v w Hb HV eq_refl Hw Ew). destruct (r_peek st2) as (st3 & -> & R3). destruct (remaining st2) as [| c2 r2] eqn:R2; cbn [hd_error].
      + intros _. right. right. right. exists w, [v], []. split; [now constructor |]. split; [exact Ew |]. split; [intros ? [=] | exact Ha].
      + destruct (N.eqb_spec c2 sep) as [-> | Hc2].
        * cbv zeta. destruct (r_next st3) as (st4 & E4 & R4). rewrite E4. cbn [snd]. rewrite R3 in R4. cbn [tl] in R4. destruct (r_peek st4) as (st5 & -> & R5). rewrite R4 in *. destruct r2 as [| c3 r3]; cbn [hd_error].
          { intros _. right. right. left. exists w, [v], []. split; [now constructor |]. split; [exact Ew |]. intros ? [=]. }
          destruct (mem_char c3 first) eqn:E3.
          2:{ intros _. right. right. left. exists w, [v], (c3 :: r3). split; [now constructor |]. split; [exact Ew |]. intros d [= <-] X. apply mem_char_In in X. congruence. }
          specialize (IH st5). rewrite R5 in IH. destruct (iter_collect item sep stop [sep; stop] first n st5) as [z st6]. cbn [fst snd] in *. destruct z as [l | e1 | |]; cbn [res_map]; try discriminate. intros _.
          assert (L : length (c3 :: r3) <= b). { rewrite Ew, app_length in Hb. cbn [length] in *. lia. }
          assert (HV3 : V (c3 :: r3)). { apply (Vapp (w ++ [sep])). rewrite <- app_assoc. cbn [app]. now rewrite <- Ew. }
          destruct (IH e1 L HV3 eq_refl) as [(k & u & rest & p & E & HW & Hh) | [(w' & l & k & u & rest & p & d & Hl & E & HW & Hd & Hd') | [(w' & l & rest & Hl & E & Hn) | (w' & l & rest & Hl & E & Hn & Hat)]]].
          -- right. left. exists w, [v], k, u, rest, p, c3. split; [now constructor |]. rewrite <- E. split; [exact Ew |]. split; [exact HW |]. split; [reflexivity | now apply mem_char_In].
          -- right. left. exists (w ++ [sep] ++ w'), (v :: l), k, u, rest, p, d. split; [now constructor |]. split; [| auto]. rewrite Ew, E. now rewrite <- !app_assoc.
          -- right. right. left. exists (w ++ [sep] ++ w'), (v :: l), rest. split; [now constructor |]. split; [| auto]. rewrite Ew, E. now rewrite <- !app_assoc.
          -- right. right. right. exists (w ++ [sep] ++ w'), (v :: l), rest. split; [now constructor |]. split; [rewrite Ew, E; now rewrite <- !app_assoc |]. split; [exact Hn |]. destruct Hat as [X Y]. split; [exact X |]. intros Z. apply Y. cbn [app] in Z. now apply ends_split in Z.
        * destruct (N.eqb_spec c2 stop) as [-> | Hc2'].
          { destruct n as [| n]; [discriminate |]. cbn [iter_collect]. unfold iter_next. destruct (r_peek st3) as (st4 & -> & R4). rewrite R3. cbn [hd_error]. rewrite N.eqb_refl. discriminate. }
          intros _. right. right. right. exists w, [v], (c2 :: r2). split; [now constructor |]. split; [exact Ew |]. split; [| exact Ha]. intros d [= <-] [X | [X | []]]; congruence.
    - intros _. left. destruct (He e' Hb HV eq_refl) as (k & u & rest & p & E & HW). exists k, u, rest, p. split; [exact E |]. split; [exact HW |]. congruence.
  Qed.
End Lists.

Section Values.
  Variable checks : bool.
  Context {num : Type}.
  Variable conv : rstr -> option num.
  Notation D := (hand conv).
  Notation value_at n := (take_value checks conv n).
  Notation member_at n := (take_member checks (take_value checks conv n) n).
  Notation Dm := (Doomed D (unreadable conv)).
  Notation DmM := (DoomedMember D (unreadable conv)).

  (** ** Strings *)
  Lemma str_loop_wrong : forall fuel w0 s0 st e, Chars D w0 s0 -> fst (str_loop checks fuel s0 st) = Err e ->
    exists u rest p, remaining st = u ++ rest /\ WrongString D (quote :: w0 ++ u) rest p.
  Proof.
    induction fuel as [| n IH]; intros w0 s0 st e Hs; [discriminate |]. cbn [str_loop]. destruct (r_next st) as (st1 & -> & R1).
    destruct (remaining st) as [| c r] eqn:R; cbn [hd_error tl] in *. { intros _. exists [], [], Unfinished. split; [reflexivity |]. rewrite app_nil_r. now apply (wrong_unfinished D w0 s0). }
    assert (Hext : forall w1 d st2, Chars D (c :: w1) [d] -> remaining st1 = w1 ++ remaining st2 -> fst (str_loop checks n (s0 ++ [d]) st2) = Err e -> exists u rest p, c :: r = u ++ rest /\ WrongString D (quote :: w0 ++ u) rest p).
    { intros w1 d st2 H1 H2 H3. destruct (IH _ _ _ _ (chars_snoc conv _ _ _ _ Hs H1) H3) as (u & rest & p & E & Hw). exists (c :: w1 ++ u), rest, p. split; [cbn [app]; rewrite <- app_assoc, <- E, <- H2; congruence |]. rewrite <- app_assoc in Hw. exact Hw. }
    destruct (N.eqb_spec c 34) as [_ | Hq]; [discriminate |]. destruct (is_plain c) eqn:Ep.
    - apply (Hext [] c st1); [| reflexivity]. apply is_plain_iff in Ep. constructor; [exact Ep | constructor].
    - destruct (N.eqb_spec c 92) as [-> | _]; [| discriminate]. destruct (remaining st1) as [| e' r'] eqn:Rr.
      + unfold parse_escape. destruct (r_next st1) as (st2 & -> & _). rewrite Rr. cbn [hd_error]. intros _. exists [92%N], [], Unfinished. split; [now rewrite <- R1 |]. now apply (wrong_backslash D w0 s0).
      + pose proof (parse_escape_good checks e' r' st1 Rr) as G. destruct (parse_escape_arm checks e' r' st1 Rr) as (_ & G2 & G3). unfold good in G. destruct (parse_escape checks st1) as [[d | e1 | |] st2] eqn:Ee; unfold then_; cbn [fst snd] in *; try discriminate.
        * destruct G as (w & Ew & Hw). apply (Hext w d st2); [| now rewrite <- Ew]. now apply (esc_chars conv) in Hw.
        * intros _. destruct (N.eq_dec e' (chr "u")) as [-> | Hu].
          2:{ destruct (escape_cases e') as [[d Hd] | Hn]; [| discriminate (G3 Hn Hu)]. destruct (parse_escape_arm checks e' r' st1 Rr) as (G1 & _). destruct (G1 d Hd) as (st' & E' & _). congruence. }
          destruct (G2 eq_refl) as (st3 & R3 & E3). destruct (parse_u16_cases checks st3) as [(u & r2 & Hh & R' & _) | [Hn _]].
          { destruct (unicode_yields checks u r2 st3 Hh R') as (st' & E' & _). rewrite E' in E3. discriminate E3. }
          destruct (hex_wrong _ Hn) as (h & rest & Eh & H1 & H2 & H3). exists (92%N :: chr "u" :: h), rest, HexDigit. split; [cbn [app]; congruence |]. now apply (wrong_hex D w0 s0).
  Qed.
  Lemma str_wrong fuel st e : fst (parse_str checks fuel st) = Err e -> (exists u rest p, remaining st = u ++ rest /\ WrongString D u rest p) \/ next_not (eq quote) (remaining st).
  Proof.
    unfold parse_str. destruct (r_consume [34%N] st quote_ascii) as [(r' & st' & A' & -> & C) | [Hn (e' & st' & ->)]]; unfold then_; cbn [fst snd].
    - intros H. left. destruct (str_loop_wrong fuel [] [] st' e (chars_nil D) H) as (u & rest & p & E & Hw). exists (quote :: u), rest, p. split; [| exact Hw]. rewrite A'. cbn [app]. unfold quote. congruence.
    - intros _. right. intros c Hc <-. destruct (remaining st) as [| d r]; [discriminate Hc |]. injection Hc as ->. now apply (Hn r).
  Qed.
  (** ** After a value *)
  Lemma value_stop n st st' v : value_at n st = (Ok v, st') -> stop_at is_ws (remaining st').
  Proof.
    destruct n as [| n]; [discriminate |]. cbn [take_value]. destruct (iw_peek (skip_ws st)) as [p st1]. cbv zeta. match goal with |- then_ ?x _ = _ -> _ => destruct x as [o st2] end. unfold then_. destruct o; cbn [fst snd]; try discriminate.
    intros [= _ <-]. destruct (r_skip st2) as (wa & ra & _ & _ & Hs & R). now rewrite R.
  Qed.
  Lemma number_stop n st st' v a w : ws a -> number_run_text w -> remaining st = a ++ w ++ remaining st' -> length (remaining st) < n -> value_at n st = (Ok v, st') -> stop_at is_number_char (remaining st').
  Proof.
    intros Ha Hw R Hf. destruct n as [| n]; [discriminate |]. cbn [take_value]. pose proof Hw as Hw0. destruct Hw0 as [c w Hc Hw'].
    destruct (take_head st a (c :: w) (remaining st') Ha) as (st1 & -> & R1 & Hl); [exists c, w; split; [reflexivity | now apply digit_first] | exact R |]. cbn [app hd_error] in *.
    assert (En : in_range 48 57 c || N.eqb c (chr "-") = true) by (apply orb_true_iff; destruct Hc as [Hc | ->]; [left; now apply in_range_iff | right; reflexivity]).
    assert (Hx3 : forall d, is_number_char d = false -> c <> d).
    { intros d Hd ->. destruct Hc as [Hc | ->]; [| discriminate Hd]. assert (is_number_char d = true) by (apply is_number_char_iff; left; exact Hc). congruence. }
    rewrite (proj2 (N.eqb_neq c (chr "n"))) by now apply Hx3. rewrite (proj2 (N.eqb_neq c (chr "t"))) by now apply Hx3. rewrite (proj2 (N.eqb_neq c (chr "f"))) by now apply Hx3. rewrite En.
    destruct (r_next st1) as (st2 & E2 & R2). rewrite E2. cbn [snd]. rewrite R1 in R2. cbn [tl] in R2. cbn [length] in Hl.
    destruct (number_run_spec n [c] st2) as (w2 & r2 & A & B & C & (st3 & -> & R3)); [rewrite R2; lia |]. rewrite R2 in A. unfold then_ at 2. cbn [fst snd]. unfold or_panic. destruct (option_map JNumber (conv ([c] ++ w2))); unfold then_; cbn [fst snd]; try discriminate. intros [= _ <-].
    destruct (r_skip st3) as (b & r3 & Rb & Hb & _ & R4). rewrite R4 in *. rewrite R3 in Rb. subst r2. rewrite Rb in A, C. rewrite app_assoc in A. apply app_inv_tail in A. destruct Hb as [| d b Hd Hb]; [exact C |].
    exfalso. rewrite A in Hw'. apply Forall_app in Hw' as [_ Hw']. inversion Hw' as [| ? ? Hd' _]; subst. apply is_number_char_iff in Hd'. rewrite (ws_not_number d Hd) in Hd'. discriminate.
  Qed.
  Lemma padded_number a w b v : ws a -> Val D w v -> ws b -> ends_in_number (a ++ w ++ b) -> b = [] /\ number_run_text w.
  Proof.
    intros Ha Hv Hb E. assert (Hb0 : b = []).
    { destruct b as [| c b] using rev_ind; [reflexivity |]. exfalso. apply Forall_app in Hb as [_ Hb]. inversion Hb as [| ? ? Hc _]; subst. rewrite !app_assoc in E. apply ends_last in E. rewrite (ws_not_number c Hc) in E. discriminate. }
    subst b. rewrite app_nil_r in E. split; [reflexivity |]. assert (E' : ends_in_number w).
    { clear Hv Hb. induction Ha as [| c a Hc _ IH]; [exact E |]. apply IH. change ((c :: a) ++ w) with ([] ++ c :: a ++ w) in E. apply ends_split in E; [exact E |]. now apply ws_not_number. }
    clear E Ha. assert (Br : forall c x, is_number_char c = false -> w = x ++ [c] -> False). { intros c x Hc ->. apply ends_last in E'. congruence. }
    assert (Wd : forall t, In t [lit "null"; lit "true"; lit "false"] -> ~ ends_in_number t).
    { intros t Ht (w0 & x & Et & Hx). destruct Hx as [c x Hc _]. assert (Hin : In c t) by (rewrite Et; apply in_or_app; right; now left). clear Et.
      assert (Hl : mem_char c (lit "nultrefas") = true). { destruct Ht as [<- | [<- | [<- | []]]]; cbn in Hin; repeat (destruct Hin as [<- | Hin]; [reflexivity |]); contradiction. }
      apply mem_char_In in Hl. cbn in Hl. unfold digit in Hc. repeat (destruct Hl as [<- | Hl]; [destruct Hc as [Hc | Hc]; [lia | discriminate Hc] |]). contradiction. }
    destruct Hv as [| | | w x [Hw Hx] | w s [w' s' Hw] | w0 H0 | w0 l Hl | w0 H0 | w0 l Hl]; try (exfalso; eapply Wd; [| exact E']; cbn; auto; fail); [exact Hw | | | | |].
    - exfalso. apply (Br quote (quote :: w')); reflexivity.
    - exfalso. apply (Br (chr "]") (lit "[" ++ w0)); reflexivity.
    - exfalso. apply (Br (chr "]") (lit "[" ++ w0)); reflexivity.
    - exfalso. apply (Br (chr "}") (lit "{" ++ w0)); reflexivity.
    - exfalso. apply (Br (chr "}") (lit "{" ++ w0)); reflexivity.
  Qed.
  Lemma value_after n st st' v w : length (remaining st) < n -> value_at n st = (Ok v, st') -> Padded D w v -> remaining st = w ++ remaining st' -> after_value w (remaining st').
  Proof.
    intros Hf E Hw R. split; [now apply (value_stop _ _ _ _ E) |]. intros Hn. destruct Hw as [a w b v Ha Hv Hb]. destruct (padded_number a w b v Ha Hv Hb Hn) as [-> Hx]. rewrite app_nil_r, <- app_assoc in R. now apply (number_stop n st st' v a w).
  Qed.
End Values.
