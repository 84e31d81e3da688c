(** * JsonRead: the hand-written JSON reader accepts exactly its dialect. *)
From Coq Require Import String ZArith.
From Verif Require Export JsonFacts.
From Coq Require Import List Lia.
Open Scope list_scope.

Lemma in_range_iff lo hi c : in_range lo hi c = true <-> (lo <= c <= hi)%N.
Proof. unfold in_range. now rewrite andb_true_iff, !N.leb_le. Qed.
Lemma is_plain_iff c : is_plain c = true <-> (32 <= c <= max_char)%N /\ c <> quote /\ c <> backslash.
Proof. unfold is_plain, quote, backslash, max_char. rewrite !orb_true_iff, !in_range_iff. lia. Qed.

(** ** [\u] escapes *)
Lemma HEX_iff c : In c HEX <-> hex_digit c.
Proof.
  split.
  - intros H. cbn in H. repeat (destruct H as [<- | H]; [unfold hex_digit; cbn; lia |]). contradiction.
  - intros H. apply mem_char_In. unfold hex_digit in H.
    assert (Hc : forall n, (n < 103)%nat -> (forallb (fun k => implb ((48 <=? k) && (k <=? 57) || (97 <=? k) && (k <=? 102) || (65 <=? k) && (k <=? 70))%N (mem_char k HEX)) (map N.of_nat (seq 0 103))) = true) by (intros; vm_compute; reflexivity).
    specialize (Hc 0 ltac:(lia)). rewrite forallb_forall in Hc. specialize (Hc c). rewrite in_map_iff in Hc.
    assert (Hi : exists x : nat, N.of_nat x = c /\ In x (seq 0 103)) by (exists (N.to_nat c); split; [lia | apply in_seq; lia]).
    apply Hc in Hi. revert Hi. destruct ((48 <=? c) && (c <=? 57) || (97 <=? c) && (c <=? 102) || (65 <=? c) && (c <=? 70))%N eqn:E; [intros Hi; exact Hi |].
    rewrite !orb_false_iff, !andb_false_iff, !N.leb_gt in E. lia.
Qed.
Lemma hex_arm_some c : hex_digit c -> exists d, hex_arm c = Some d.
Proof.
  unfold hex_digit, hex_arm. intros H. destruct (in_range 48 57 c) eqn:E1; [eauto |]. destruct (in_range 97 102 c) eqn:E2; [eauto |]. destruct (in_range 65 70 c) eqn:E3; [eauto |].
  exfalso. destruct H as [H | [H | H]]; apply in_range_iff in H; congruence.
Qed.
Section Escapes.
  Variable checks : bool.
  Lemma u16_zero chars : Forall hex_digit chars -> fold_left (u16_step checks) chars (Some 0%N) = Some 0%N.
  Proof.
    induction 1 as [| c chars Hc _ IH]; [reflexivity |]. cbn [fold_left]. unfold u16_step at 2. destruct (hex_arm_some c Hc) as [d ->]. exact IH.
  Qed.
  Lemma hex4_ascii : ascii_text (lit "\u").
  Proof. repeat constructor. Qed.
  Lemma parse_u16_cases st :
    (exists u r', hex4 u /\ remaining st = u ++ r' /\ yields (parse_u16 checks st) 0%N r') \/
    ((forall u r', hex4 u -> remaining st <> u ++ r') /\ exists e st', parse_u16 checks st = (Err e, st')).
  Proof.
    unfold parse_u16. destruct (r_take_chars HEX 4 st) as [(w & r' & st' & A & B & C & F & G) | [A (e & st' & F)]]; rewrite F; unfold then_; cbn [fst snd].
    - left. exists w, r'. assert (Hw : Forall hex_digit w) by (eapply Forall_impl; [| exact C]; intros c; apply HEX_iff). split; [split; assumption |]. split; [exact B |].
      rewrite (u16_zero w Hw). cbn [or_panic]. exists st'. auto.
    - right. split; [| eauto]. intros u r' [Hl Hu]. apply A; [exact Hl |]. eapply Forall_impl; [| exact Hu]. intros c. apply HEX_iff.
  Qed.
  Definition Esc (conv_dialect : rstr -> char -> Prop) : rstr -> char -> Prop := fun w c =>
    (exists e, w = [e] /\ escape e c) \/ exists u, w = chr "u" :: u /\ conv_dialect u c.
  Definition hand_unicode (u : rstr) (c : char) : Prop := hex4 u /\ c = 0%N.
  Lemma escape_cases e : (exists c, escape e c) \/ forall c, ~ escape e c.
  Proof.
    destruct (existsb (fun p => N.eqb e (fst p)) [(34, 34); (92, 92); (47, 47); (98, 8); (102, 12); (110, 10); (114, 13); (116, 9)]%N) eqn:E.
    - left. apply existsb_exists in E as ([e' c] & Hi & He). apply N.eqb_eq in He. cbn in He. subst e'. exists c. exact Hi.
    - right. intros c Hi. assert (existsb (fun p => N.eqb e (fst p)) [(34, 34); (92, 92); (47, 47); (98, 8); (102, 12); (110, 10); (114, 13); (116, 9)]%N = true); [| congruence].
      apply existsb_exists. exists (e, c). split; [exact Hi | apply N.eqb_refl].
  Qed.
  Lemma parse_escape_arm e r st : remaining st = e :: r ->
    (forall c, escape e c -> yields (parse_escape checks st) c r) /\
    (e = chr "u" -> exists st1, remaining st1 = r /\ parse_escape checks st =
        then_ (parse_u16 checks st1) (fun v st2 =>
        then_ (if in_range 55296 57343 v then
                 then_ (consume_str (lit "\u") st2) (fun _ st3 =>
                 then_ (parse_u16 checks st3) (fun other st4 => or_panic (decode_pair v other) st4))
               else (Ok v, st2))
              (fun codepoint st5 => or_panic (char_of_u32 codepoint) st5))) /\
    ((forall c, ~ escape e c) -> e <> chr "u" -> fst (parse_escape checks st) = Panic).
  Proof.
    intros R. unfold parse_escape. destruct (r_next st) as (st1 & -> & R1). rewrite R in *. cbn [hd_error tl] in *. split; [| split].
    - intros c H. cbn in H. repeat (destruct H as [[= <- <-] | H]; [cbn; exists st1; auto |]). contradiction.
    - intros ->. exists st1. split; [exact R1 | reflexivity].
    - intros He Hu.
      destruct (N.eqb_spec e 34) as [-> | _]; [elim (He 34%N); cbn; auto 12 |].
      destruct (N.eqb_spec e 92) as [-> | _]; [elim (He 92%N); cbn; auto 12 |].
      destruct (N.eqb_spec e 47) as [-> | _]; [elim (He 47%N); cbn; auto 12 |].
      destruct (N.eqb_spec e 98) as [-> | _]; [elim (He 8%N); cbn; auto 12 |].
      destruct (N.eqb_spec e 102) as [-> | _]; [elim (He 12%N); cbn; auto 12 |].
      destruct (N.eqb_spec e 110) as [-> | _]; [elim (He 10%N); cbn; auto 12 |].
      destruct (N.eqb_spec e 114) as [-> | _]; [elim (He 13%N); cbn; auto 12 |].
      destruct (N.eqb_spec e 116) as [-> | _]; [elim (He 9%N); cbn; auto 12 |].
      destruct (N.eqb_spec e 117) as [-> | _]; [elim Hu; reflexivity | reflexivity].
  Qed.
  Lemma unicode_yields u r st1 : hex4 u -> remaining st1 = u ++ r ->
    yields (then_ (parse_u16 checks st1) (fun v st2 =>
        then_ (if in_range 55296 57343 v then
                 then_ (consume_str (lit "\u") st2) (fun _ st3 =>
                 then_ (parse_u16 checks st3) (fun other st4 => or_panic (decode_pair v other) st4))
               else (Ok v, st2))
              (fun codepoint st5 => or_panic (char_of_u32 codepoint) st5))) 0%N r.
  Proof.
    intros Hu R. destruct (parse_u16_cases st1) as [(u' & r' & Hu' & R' & Hy) | [H _]]; [| now elim (H u r Hu)].
    assert (r' = r).
    { rewrite R in R'. apply (f_equal (skipn 4)) in R'. destruct Hu as [Hl _], Hu' as [Hl' _]. rewrite <- Hl in R' at 1. rewrite <- Hl' in R'.
      rewrite !skipn_app, !skipn_all, !Nat.sub_diag in R'. cbn [skipn app] in R'. congruence. }
    subst r'. eapply then_yields; [exact Hy |]. intros st2 R2. cbn. exists st2. auto.
  Qed.
  Lemma parse_escape_good e r st : remaining st = e :: r ->
    good (Esc hand_unicode) (fun r' => exists e r'', r' = e :: r'' /\ (forall c, ~ escape e c) /\ e <> chr "u") (parse_escape checks st) (e :: r).
  Proof.
    intros R. destruct (parse_escape_arm e r st R) as (H1 & H2 & H3). unfold good.
    destruct (escape_cases e) as [[c Hc] | Hn].
    - destruct (H1 c Hc) as (st' & -> & R'). cbn [fst snd]. exists [e]. rewrite R'. split; [reflexivity |]. left. eauto.
    - destruct (N.eq_dec e (chr "u")) as [Hu | Hu].
      + destruct (H2 Hu) as (st1 & R1 & E). destruct (parse_u16_cases st1) as [(u & r' & Hh & R' & _) | [_ (err & st' & Er)]].
        * destruct (unicode_yields u r' st1 Hh R') as (st' & E' & R''). rewrite E, E'. cbn [fst snd]. exists (e :: u). rewrite R''. split; [rewrite <- R1, R'; reflexivity |].
          right. exists u. subst e. split; [reflexivity | split; [exact Hh | reflexivity]].
        * rewrite E, Er. exact Logic.I.
      + rewrite (H3 Hn Hu). exists e, r. auto.
  Qed.
End Escapes.

(** ** Strings *)
Section Reader.
  Variable checks : bool.
  Context {num : Type}.
  Variable conv : rstr -> option num.
  Notation D := (hand conv).
  Definition valid_text (r : rstr) : Prop := Forall (fun c => (c <= max_char)%N) r.
  Lemma valid_app w r : valid_text (w ++ r) -> valid_text r.
  Proof. intros H. now apply Forall_app in H. Qed.

  Lemma chars_snoc w s w' s' : Chars D w s -> Chars D w' s' -> Chars D (w ++ w') (s ++ s').
  Proof.
    induction 1 as [| c w s Hc _ IH | e c w s He _ IH | u c w s Hu _ IH]; intros H'; cbn [app].
    - exact H'.
    - constructor; auto.
    - apply chars_escape; auto.
    - rewrite <- app_assoc. apply chars_unicode; auto.
  Qed.
  Lemma esc_chars w c : Esc hand_unicode w c -> Chars D (backslash :: w) [c].
  Proof.
    intros [(e & -> & He) | (u & -> & Hu)].
    - apply chars_escape; [exact He | constructor].
    - rewrite <- (app_nil_r u). apply chars_unicode; [exact Hu | constructor].
  Qed.
  Definition StrTail (w0 s0 : rstr) (w s : rstr) : Prop := exists w', w = w' ++ [quote] /\ Chars D (w0 ++ w') s.
  Lemma str_loop_good : forall fuel w0 s0 st, length (remaining st) < fuel -> valid_text (remaining st) -> Chars D w0 s0 ->
    good (StrTail w0 s0) (fun r => DoomedString D (quote :: w0 ++ r)) (str_loop checks fuel s0 st) (remaining st).
  Proof.
    induction fuel as [| n IH]; intros w0 s0 st Hf HV Hs; [lia |]. cbn [str_loop]. destruct (r_next st) as (st1 & -> & R1).
    destruct (remaining st) as [| c r] eqn:R; cbn [hd_error tl] in *; [exact Logic.I |]. cbn [length] in Hf. pose proof HV as HV0. apply Forall_cons_iff in HV as [Hc HV].
    assert (Hext : forall w1 d st2, Chars D w1 [d] -> remaining st1 = tl w1 ++ remaining st2 -> w1 <> [] -> hd 0%N w1 = c ->
      good (StrTail w0 s0) (fun r0 => DoomedString D (quote :: w0 ++ r0)) (str_loop checks n (s0 ++ [d]) st2) (c :: r)).
    { intros w1 d st2 H1 H2 H3 H4. destruct w1 as [| c1 w1]; [congruence |]. cbn [hd tl] in *. subst c1. rewrite R1 in H2.
      specialize (IH (w0 ++ c :: w1) (s0 ++ [d]) st2).
      assert (length (remaining st2) < n) by (rewrite H2, app_length in Hf; lia). specialize (IH H).
      assert (HV2 : valid_text (remaining st2)) by (apply (valid_app w1); rewrite <- H2; exact HV).
      specialize (IH HV2 (chars_snoc _ _ _ _ Hs H1)). unfold good in *. destruct (str_loop checks n (s0 ++ [d]) st2) as [[v | e | |] st']; cbn [fst snd] in *.
      - destruct IH as (w & Ew & w' & -> & Hw). exists (c :: w1 ++ w' ++ [quote]). split; [rewrite H2, Ew; cbn [app]; now rewrite <- !app_assoc |].
        exists (c :: w1 ++ w'). split; [cbn [app]; now rewrite <- !app_assoc |]. rewrite <- app_assoc in Hw. exact Hw.
      - exact Logic.I.
      - rewrite H2. rewrite <- app_assoc in IH. exact IH.
      - contradiction. }
    destruct (N.eqb_spec c 34) as [-> | Hq].
    - unfold good. cbn [fst snd]. exists [quote]. rewrite R1. split; [reflexivity |]. exists []. split; [reflexivity |]. rewrite app_nil_r. exact Hs.
    - destruct (is_plain c) eqn:Ep.
      + apply is_plain_iff in Ep. apply (Hext [c] c st1); [apply chars_plain; [exact Ep | constructor] | reflexivity | discriminate | reflexivity].
      + destruct (N.eqb_spec c 92) as [-> | Hb].
        * destruct (remaining st1) as [| e r1] eqn:R1'.
          -- unfold parse_escape. destruct (r_next st1) as (st2 & -> & R2). rewrite R1'. exact Logic.I.
          -- subst r. pose proof (parse_escape_good checks e r1 st1 R1') as He. unfold good in He. destruct (parse_escape checks st1) as [[d | err | |] st2]; cbn [fst snd] in He.
             ++ destruct He as (w & Ew & He). unfold then_. cbn [fst snd]. apply (Hext (backslash :: w) d st2); [now apply esc_chars | exact Ew | discriminate | reflexivity].
             ++ exact Logic.I.
             ++ destruct He as (e' & r'' & [= <- <-] & H1 & H2). unfold good. cbn [then_ fst snd]. apply (doomed_escape _ w0 s0); assumption.
             ++ contradiction.
        * unfold good. cbn [fst]. apply (doomed_control _ w0 s0 c r Hs).
          destruct (N.ltb_spec c 32) as [H | H]; [exact H |]. exfalso. assert (is_plain c = true); [| congruence]. apply is_plain_iff. unfold quote, backslash. auto.
  Qed.
  Lemma quote_ascii : ascii_text [34%N].
  Proof. repeat constructor. Qed.
  Lemma parse_str_good fuel st : length (remaining st) <= fuel -> valid_text (remaining st) -> good (Quoted D) (DoomedString D) (parse_str checks fuel st) (remaining st).
  Proof.
    intros Hf HV. unfold parse_str. destruct (r_consume [34%N] st quote_ascii) as [(r' & st' & A & -> & C) | [_ (e & st' & ->)]]; [| exact Logic.I].
    unfold then_. cbn [fst snd]. rewrite A in *. cbn [app length] in *. apply Forall_cons_iff in HV as [_ HV]. subst r'.
    pose proof (str_loop_good fuel [] [] st' ltac:(lia) HV (chars_nil D)) as H. unfold good in *. destruct (str_loop checks fuel [] st') as [[v | e | |] st2]; cbn [fst snd] in *; auto.
    destruct H as (w & Ew & w' & -> & Hw). exists (quote :: w' ++ [quote]). split; [cbn [app]; now rewrite Ew |]. constructor. exact Hw.
  Qed.

  (** Completeness. *)
  Lemma str_loop_chars w s : Chars D w s -> forall fuel s0 st r, remaining st = w ++ r -> length w < fuel ->
    exists n st', n <= length w /\ remaining st' = r /\ str_loop checks fuel s0 st = str_loop checks (fuel - n) (s0 ++ s) st'.
  Proof.
    induction 1 as [| c w s Hc _ IH | e c w s He _ IH | u c w s Hu _ IH]; intros fuel s0 st r R Hf.
    - exists 0, st. cbn. rewrite Nat.sub_0_r, app_nil_r. auto.
    - destruct fuel as [| n]; [lia |]. cbn [str_loop]. destruct (r_next st) as (st1 & -> & R1). rewrite R in *. cbn [app hd_error tl length] in *.
      destruct (N.eqb_spec c 34) as [-> | _]; [destruct Hc as (_ & Hc & _); now elim Hc |]. apply is_plain_iff in Hc. rewrite Hc.
      destruct (IH n (s0 ++ [c]) st1 r R1) as (m & st' & Hm & R' & E); [lia |]. exists (S m), st'. rewrite E. rewrite <- app_assoc. cbn [app]. split; [lia |]. auto.
    - destruct fuel as [| n]; [lia |]. cbn [str_loop]. destruct (r_next st) as (st1 & -> & R1). rewrite R in *. cbn [app hd_error tl length] in *.
      cbn [N.eqb]. change (is_plain backslash) with false. cbn [backslash N.eqb Pos.eqb]. destruct (parse_escape_arm checks e (w ++ r) st1 R1) as (H1 & _). destruct (H1 c He) as (st2 & E2 & R2). rewrite E2.
      unfold then_. cbn [fst snd]. destruct (IH n (s0 ++ [c]) st2 r R2) as (m & st' & Hm & R' & E); [lia |]. exists (S m), st'. rewrite E. rewrite <- app_assoc. cbn [app]. split; [lia |]. auto.
    - destruct fuel as [| n]; [lia |]. cbn [str_loop]. destruct (r_next st) as (st1 & -> & R1). rewrite R in *. cbn [app hd_error tl length] in *.
      change (is_plain backslash) with false. cbn [backslash N.eqb Pos.eqb]. destruct Hu as [Hu ->]. rewrite <- app_assoc in R1. rewrite app_length in Hf.
      destruct (parse_escape_arm checks _ _ st1 R1) as (_ & H2 & _). destruct (H2 eq_refl) as (st2 & R2 & E2). rewrite E2.
      destruct (unicode_yields checks u (w ++ r) st2 Hu R2) as (st3 & E3 & R3). rewrite E3. unfold then_. cbn [fst snd].
      destruct (IH n (s0 ++ [0%N]) st3 r R3) as (m & st' & Hm & R' & E); [lia |]. exists (S m), st'. rewrite E. rewrite <- app_assoc. cbn [app]. split; [rewrite app_length; lia |]. auto.
  Qed.
  Lemma parse_str_complete q s r st fuel : Quoted D q s -> remaining st = q ++ r -> length (remaining st) <= fuel -> yields (parse_str checks fuel st) s r.
  Proof.
    intros [w s' Hw] R Hf. unfold parse_str. destruct (r_consume_ok [34%N] st ((w ++ [quote]) ++ r) quote_ascii R) as (st1 & -> & R1). unfold then_. cbn [fst snd].
    rewrite R in Hf. cbn [app length] in Hf. rewrite !app_length in Hf. cbn [length] in Hf. rewrite <- app_assoc in R1.
    destruct (str_loop_chars w s' Hw fuel [] st1 ([quote] ++ r) R1) as (n & st2 & Hn & R2 & E); [lia |]. rewrite E. cbn [app].
    destruct (fuel - n) as [| m] eqn:Em; [lia |]. cbn [str_loop]. destruct (r_next st2) as (st3 & -> & R3). rewrite R2 in *. cbn [app hd_error tl] in *. cbn [quote N.eqb Pos.eqb]. exists st3. auto.
  Qed.
  Lemma parse_str_doom fuel st : DoomedString D (remaining st) -> length (remaining st) <= fuel -> fst (parse_str checks fuel st) = Panic.
  Proof.
    assert (Hgo : forall w s r, Chars D w s -> remaining st = quote :: w ++ r -> r <> [] -> length (remaining st) <= fuel ->
      (forall m st' s', remaining st' = r -> 0 < m -> fst (str_loop checks m s' st') = Panic) -> fst (parse_str checks fuel st) = Panic).
    { intros w s r Hw R Hr Hf Hd. unfold parse_str. destruct (r_consume_ok [34%N] st (w ++ r) quote_ascii R) as (st1 & -> & R1). unfold then_. cbn [fst snd].
      rewrite R in Hf. cbn [length] in Hf. rewrite app_length in Hf. destruct (str_loop_chars w s Hw fuel [] st1 r R1) as (n & st2 & Hn & R2 & E); [lia |]. rewrite E.
      apply Hd; [exact R2 |]. lia. }
    intros H Hf. assert (Ht : forall t, DoomedString D t -> remaining st = t -> fst (parse_str checks fuel st) = Panic); [| now apply (Ht (remaining st))].
    clear H. intros t H R. destruct H as [w s c r Hw Hc | w s e r Hw He Hu].
    - apply (Hgo w s (c :: r) Hw R); [discriminate | exact Hf |]. intros [| m] st' s' R' Hm; [lia |]. cbn [str_loop]. destruct (r_next st') as (st2 & -> & R2). rewrite R'. cbn [hd_error].
      destruct (N.eqb_spec c 34) as [-> | _]; [lia |]. destruct (is_plain c) eqn:Ep; [apply is_plain_iff in Ep; lia |]. destruct (N.eqb_spec c 92) as [-> | _]; [lia |]. reflexivity.
    - apply (Hgo w s (backslash :: e :: r) Hw R); [discriminate | exact Hf |]. intros [| m] st' s' R' Hm; [lia |]. cbn [str_loop]. destruct (r_next st') as (st2 & -> & R2). rewrite R' in *. cbn [hd_error tl] in *.
      change (is_plain backslash) with false. cbn [backslash N.eqb Pos.eqb]. destruct (parse_escape_arm checks e r st2 R2) as (_ & _ & H3). apply then_panics. now apply H3.
  Qed.

  (** ** Numbers *)
  Lemma is_number_char_iff c : is_number_char c = true <-> number_char c.
  Proof. unfold is_number_char, number_char, digit. rewrite orb_true_iff, in_range_iff, mem_char_In. tauto. Qed.
  Lemma number_run_spec : forall fuel s st, length (remaining st) < fuel ->
    exists w r', remaining st = w ++ r' /\ Forall (fun c => is_number_char c = true) w /\ stop_at is_number_char r' /\ yields (number_run fuel s st) (s ++ w) r'.
  Proof.
    induction fuel as [| n IH]; intros s st Hf; [lia |]. cbn [number_run]. destruct (r_peek st) as (st1 & -> & R1).
    destruct (remaining st) as [| c r] eqn:R; cbn [hd_error].
    - exists [], []. repeat split; auto using stop_nil. rewrite app_nil_r. exists st1. auto.
    - destruct (is_number_char c) eqn:E.
      + destruct (r_next st1) as (st2 & E2 & R2). rewrite E2. cbn [snd]. rewrite R1 in R2. cbn [tl] in R2. cbn [length] in Hf.
        destruct (IH (s ++ [c]) st2) as (w & r' & A & B & C & F); [rewrite R2; lia |]. exists (c :: w), r'. rewrite <- app_assoc in F. rewrite <- R2, A. repeat split; auto.
      + exists [], (c :: r). repeat split; auto using stop_cons. rewrite app_nil_r. exists st1. auto.
  Qed.

  (** ** Values *)
  Lemma elements_sepby w l : Elements D w l <-> SepBy (chr ",") (Padded D) w l.
  Proof. split; (induction 1; [now constructor | now apply (sepby_more (chr ",")) || now apply (elements_more D)]). Qed.
  Lemma members_sepby w l : Members D w l <-> SepBy (chr ",") (Member D) w l.
  Proof. split; (induction 1; [now constructor | now apply (sepby_more (chr ",")) || now apply (members_more D)]). Qed.

  Notation Dm := (Doomed D (unreadable conv)).
  Notation DmM := (DoomedMember D (unreadable conv)).
  Definition value_ok n : Prop := forall st, length (remaining st) <= n -> valid_text (remaining st) -> good (Padded D) Dm (take_value checks conv (S n) st) (remaining st).

  Lemma member_good n st : (forall st, length (remaining st) < n -> valid_text (remaining st) -> good (Padded D) Dm (take_value checks conv n st) (remaining st)) ->
    length (remaining st) < n -> valid_text (remaining st) ->
    good (Member D) DmM (take_member checks (take_value checks conv n) n st) (remaining st).
  Proof.
    intros IH Hf HV. unfold take_member. destruct (r_skip st) as (a & r1 & R & Ha & _ & R1). rewrite R in *. rewrite app_length in Hf. apply valid_app in HV.
    pose proof (parse_str_good n (skip_ws st)) as Hs. rewrite R1 in Hs. specialize (Hs ltac:(lia) HV). unfold good in Hs.
    destruct (parse_str checks n (skip_ws st)) as [[k | e | |] st1]; unfold then_; cbn [fst snd] in *; [| exact Logic.I | | contradiction].
    - destruct Hs as (q & Eq & Hq). destruct (r_skip st1) as (b & r2 & R2 & Hb & _ & R3).
      destruct (r_consume (lit ":") (skip_ws st1)) as [(r4 & st4 & A & -> & C) | [_ (e & st' & ->)]]; [repeat constructor | cbn [fst snd] | exact Logic.I].
      rewrite R3 in A. specialize (IH st4). subst r4. rewrite Eq in Hf, HV |- *.
      assert (Hr : r2 = lit ":" ++ remaining st4) by exact A.
      assert (L : length (remaining st4) < n) by (rewrite R2, Hr, !app_length in Hf; lia).
      rewrite R2, Hr in HV. apply valid_app, valid_app, valid_app in HV. specialize (IH L HV). unfold good in *.
      destruct (take_value checks conv n st4) as [[v | e | |] st5]; cbn [fst snd] in *; [| exact Logic.I | | contradiction].
      + destruct IH as (w & Ew & Hw). exists (a ++ q ++ b ++ lit ":" ++ w). split; [rewrite R2, Hr, Ew; now rewrite <- !app_assoc |]. now constructor.
      + rewrite R2, Hr. now apply (doomed_value D (unreadable conv) a q k b).
    - now apply (doomed_key D (unreadable conv)).
  Qed.
  Lemma first_no_stop : ~ In (chr "]") FIRST_WS.
  Proof. intros H. apply mem_char_In in H. discriminate H. Qed.
  Lemma first_no_stop_obj : ~ In (chr "}") ([34%N] ++ WS).
  Proof. intros H. apply mem_char_In in H. discriminate H. Qed.

  Definition VGood (x : res (value num) take_error * iw) (a r : rstr) : Prop :=
    match fst x with
    | Ok v => exists w, r = w ++ remaining (snd x) /\ Val D w v
    | Err _ => True
    | Panic => Dm (a ++ r)
    | OutOfFuel => False
    end.
  Lemma finish st a r (out : res (value num) take_error * iw) : remaining st = a ++ r -> ws a -> VGood out a r ->
    good (Padded D) Dm (then_ out (fun v st2 => (Ok v, skip_ws st2))) (remaining st).
  Proof.
    intros R Ha H. unfold VGood, good in *. destruct out as [[v | e | |] st2]; unfold then_; cbn [fst snd] in *.
    - destruct H as (w & Ew & Hw). destruct (r_skip st2) as (b & r' & R2 & Hb & _ & R3). exists (a ++ w ++ b). rewrite R3, R, Ew, R2. split; [now rewrite <- !app_assoc |]. now constructor.
    - exact Logic.I.
    - now rewrite R.
    - contradiction.
  Qed.
  Lemma keyword a r st1 s v : ascii_text s -> Val D s v -> remaining st1 = r -> VGood (then_ (consume_str s st1) (fun _ st2 => (Ok v, st2))) a r.
  Proof.
    intros Hs Hv R. destruct (r_consume s st1 Hs) as [(r' & st' & A & -> & C) | [_ (e & st' & ->)]]; unfold VGood, then_; cbn [fst snd]; [| exact Logic.I].
    exists s. subst r'. split; [congruence | exact Hv].
  Qed.
  Theorem take_value_good : forall n st, length (remaining st) < n -> valid_text (remaining st) -> good (Padded D) Dm (take_value checks conv n st) (remaining st).
  Proof.
    induction n as [| n IH]; intros st Hf HV; [lia |]. cbn [take_value].
    destruct (r_skip st) as (a & r & R & Ha & _ & R0). destruct (r_peek (skip_ws st)) as (st1 & -> & R1). rewrite R0 in *.
    apply (finish st a r _ R Ha). rewrite R in Hf, HV. rewrite app_length in Hf. apply valid_app in HV.
    destruct r as [| c r]; cbn [hd_error]; [exact Logic.I |]. cbn [length] in Hf.
    destruct (N.eqb_spec c (chr "n")) as [_ | _]; [apply keyword; [repeat constructor | constructor | exact R1] |].
    destruct (N.eqb_spec c (chr "t")) as [_ | _]; [apply keyword; [repeat constructor | constructor | exact R1] |].
    destruct (N.eqb_spec c (chr "f")) as [_ | _]; [apply keyword; [repeat constructor | constructor | exact R1] |].
    destruct (in_range 48 57 c || N.eqb c (chr "-")) eqn:En.
    { destruct (r_next st1) as (st2 & E2 & R2). rewrite E2. cbn [snd]. rewrite R1 in R2. cbn [tl] in R2.
      destruct (number_run_spec n [c] st2) as (w & r' & A & B & C & (st3 & -> & R3)); [rewrite R2; lia |]. unfold then_. cbn [fst snd]. rewrite R2 in A. cbn [app].
      assert (Hw : number_run_text (c :: w)).
      { constructor; [apply orb_true_iff in En as [En | En]; [left; now apply in_range_iff | right; now apply N.eqb_eq] |]. eapply Forall_impl; [| exact B]. intros d. apply is_number_char_iff. }
      unfold VGood. destruct (conv (c :: w)) as [x |] eqn:Ex; cbn [option_map or_panic fst snd].
      - exists (c :: w). rewrite R3. split; [cbn [app]; congruence |]. apply val_number. split; assumption.
      - apply doomed_number; [exact Ha |]. rewrite A. apply (unreadable_ conv (c :: w) r' Hw Ex). intros d Hd Hn. apply is_number_char_iff in Hn. rewrite (C d Hd) in Hn. discriminate. }
    destruct (N.eqb_spec c 34) as [-> | _].
    { pose proof (parse_str_good n st1) as Hs. rewrite R1 in Hs. cbn [length] in Hs. specialize (Hs ltac:(lia) HV). unfold good in Hs.
      destruct (parse_str checks n st1) as [[s | e | |] st2]; unfold then_, VGood; cbn [fst snd] in *; [| exact Logic.I | | contradiction].
      - destruct Hs as (w & Ew & Hw). exists w. split; [exact Ew |]. now constructor.
      - now apply doomed_string. }
    pose proof HV as HV0. apply Forall_cons_iff in HV as [_ HV].
    destruct (N.eqb_spec c (chr "[")) as [-> | _].
    { destruct (r_consume_ok (lit "[") st1 r) as (st2 & -> & R2); [repeat constructor | exact R1 |]. unfold then_ at 1. cbn [fst snd].
      pose proof (collect_sound (take_value checks conv n) (chr ",") (chr "]") (lit ",]") FIRST_WS (Padded D) Dm (n - 1) first_no_stop ltac:(discriminate) valid_text valid_app) as Hc.
      assert (Hi : forall st, length (remaining st) <= n - 1 -> valid_text (remaining st) -> good (Padded D) Dm (take_value checks conv n st) (remaining st)) by (intros st' H1 H2; apply IH; [lia | exact H2]).
      specialize (Hc Hi n st2). rewrite R2 in Hc. specialize (Hc ltac:(lia) ltac:(lia) HV). cbn zeta in Hc.
      destruct (iter_collect (take_value checks conv n) (chr ",") (chr "]") (lit ",]") FIRST_WS n st2) as [[l | e | |] st3]; unfold then_ at 1; cbn [fst snd] in *; [| exact Logic.I | | contradiction].
      - destruct (r_consume (lit "]") st3) as [(r4 & st4 & A & -> & C) | [_ (e & st' & ->)]]; [repeat constructor | | exact Logic.I].
        unfold then_, VGood. cbn [fst snd]. subst r4. destruct Hc as [(-> & E & _) | (w & E & Hl & _)].
        + exists (lit "[]"). split; [rewrite <- E, A; reflexivity |]. now apply (val_array0 D []).
        + exists (lit "[" ++ w ++ lit "]"). split; [rewrite E, A; cbn; now rewrite <- !app_assoc |]. apply val_array. now apply elements_sepby.
      - unfold VGood. cbn [fst]. destruct Hc as [Hd | (w & l & r' & Hl & E & Hd)].
        + now apply (doomed_element D (unreadable conv) a r).
        + rewrite E. apply (doomed_elements D (unreadable conv) a w l r'); [exact Ha | now apply elements_sepby | exact Hd]. }
    destruct (N.eqb_spec c (chr "{")) as [-> | _].
    { destruct (r_consume_ok (lit "{") st1 r) as (st2 & -> & R2); [repeat constructor | exact R1 |]. unfold then_ at 1. cbn [fst snd].
      pose proof (collect_sound (take_member checks (take_value checks conv n) n) (chr ",") (chr "}") (lit ",}") ([34%N] ++ WS) (Member D) DmM (n - 1) first_no_stop_obj ltac:(discriminate) valid_text valid_app) as Hc.
      assert (Hi : forall st, length (remaining st) <= n - 1 -> valid_text (remaining st) -> good (Member D) DmM (take_member checks (take_value checks conv n) n st) (remaining st)) by (intros st' H1 H2; apply member_good; [exact IH | lia | exact H2]).
      specialize (Hc Hi n st2). rewrite R2 in Hc. specialize (Hc ltac:(lia) ltac:(lia) HV). cbn zeta in Hc.
      destruct (iter_collect (take_member checks (take_value checks conv n) n) (chr ",") (chr "}") (lit ",}") ([34%N] ++ WS) n st2) as [[l | e | |] st3]; unfold then_ at 1; cbn [fst snd] in *; [| exact Logic.I | | contradiction].
      - destruct (r_consume (lit "}") st3) as [(r4 & st4 & A & -> & C) | [_ (e & st' & ->)]]; [repeat constructor | | exact Logic.I].
        unfold then_, VGood. cbn [fst snd]. subst r4. destruct Hc as [(-> & E & _) | (w & E & Hl & _)].
        + exists (lit "{}"). split; [rewrite <- E, A; reflexivity |]. now apply (val_object0 D []).
        + exists (lit "{" ++ w ++ lit "}"). split; [rewrite E, A; cbn; now rewrite <- !app_assoc |]. apply val_object. now apply members_sepby.
      - unfold VGood. cbn [fst]. destruct Hc as [Hd | (w & l & r' & Hl & E & Hd)].
        + now apply (doomed_member D (unreadable conv) a r).
        + rewrite E. apply (doomed_members D (unreadable conv) a w l r'); [exact Ha | now apply members_sepby | exact Hd]. }
    exact Logic.I.
  Qed.

  (** ** Completeness *)
  Lemma digit_first c : digit c \/ c = chr "-" -> In c FIRST.
  Proof.
    intros [H | ->]; [| now apply mem_char_In]. unfold digit in H. assert (Hc : (c = 48 \/ c = 49 \/ c = 50 \/ c = 51 \/ c = 52 \/ c = 53 \/ c = 54 \/ c = 55 \/ c = 56 \/ c = 57)%N) by lia.
    apply mem_char_In. repeat (destruct Hc as [-> | Hc]; [reflexivity |]). now subst c.
  Qed.
  Lemma val_first w v : Val D w v -> exists c w', w = c :: w' /\ In c FIRST.
  Proof.
    intros H. destruct H as [| | | w n [H _] | w s [w' s' _] | w _ | w l _ | w _ | w l _]; try (eexists; eexists; split; [reflexivity | now apply mem_char_In]).
    destruct H as [c w H _]. exists c, w. split; [reflexivity |]. now apply digit_first.
  Qed.
  Lemma first_ws c : In c FIRST -> is_ws c = false.
  Proof. intros H. cbn in H. repeat (destruct H as [<- | H]; [reflexivity |]). contradiction. Qed.
  Lemma ws_first_ws c : In c [32; 9; 10; 13]%N -> In c WS.
  Proof. intros H. exact H. Qed.
  Lemma pad_first (F : list char) a w : ws a -> (exists c w', w = c :: w' /\ In c F) -> exists c w', a ++ w = c :: w' /\ In c (F ++ WS).
  Proof.
    intros Ha (c & w' & -> & Hc). destruct Ha as [| d a Hd _].
    - exists c, w'. split; [reflexivity |]. apply in_or_app. auto.
    - exists d, (a ++ c :: w'). split; [reflexivity |]. apply in_or_app. auto.
  Qed.
  Lemma first_app (F : list char) w r : (exists c w', w = c :: w' /\ In c F) -> exists c w', w ++ r = c :: w' /\ In c F.
  Proof. intros (c & w' & -> & Hc). exists c, (w' ++ r). auto. Qed.
  Lemma padded_first w v : Padded D w v -> exists c w', w = c :: w' /\ In c FIRST_WS.
  Proof. intros [a w' b v' Ha Hv _]. apply pad_first; [exact Ha |]. apply first_app. now apply val_first in Hv. Qed.
  Lemma quoted_first q k : Quoted D q k -> exists c w', q = c :: w' /\ In c [34%N].
  Proof. intros [w s _]. eexists; eexists. split; [reflexivity | cbn; auto]. Qed.
  Lemma member_first w m : Member D w m -> exists c w', w = c :: w' /\ In c ([34%N] ++ WS).
  Proof. intros [a q k b w' v Ha Hq _ _]. apply pad_first; [exact Ha |]. apply first_app. now apply quoted_first in Hq. Qed.

  Definition ends (r : rstr) : Prop := stop_at is_ws r /\ stop_at is_number_char r.
  Lemma ends_char c r : is_ws c = false -> is_number_char c = false -> ends (c :: r).
  Proof. intros H1 H2. split; now apply stop_cons. Qed.
  Lemma stop_first (f : char -> bool) (F : list char) w r : (exists c w', w = c :: w' /\ In c F) -> (forall c, In c F -> f c = false) -> stop_at f (w ++ r).
  Proof. intros (c & w' & -> & Hc) H. apply stop_cons. auto. Qed.
  Lemma ws_not_number c : In c [32; 9; 10; 13]%N -> is_number_char c = false.
  Proof. intros H. cbn in H. repeat (destruct H as [<- | H]; [reflexivity |]). contradiction. Qed.
  Lemma ends_pad b r : ws b -> ends r -> stop_at is_number_char (b ++ r).
  Proof. intros Hb [_ Hr]. destruct Hb as [| c b Hc _]; [exact Hr |]. apply stop_cons. now apply ws_not_number. Qed.

  Lemma take_head st a w r : ws a -> (exists c w', w = c :: w' /\ In c FIRST) -> remaining st = a ++ w ++ r ->
    exists st1, iw_peek (skip_ws st) = (hd_error (w ++ r), st1) /\ remaining st1 = w ++ r /\ length (w ++ r) <= length (remaining st).
  Proof.
    intros Ha Hw R. assert (R0 : remaining (skip_ws st) = w ++ r) by (apply (r_skip_ok st a _ R Ha), (stop_first is_ws FIRST); [exact Hw | exact first_ws]).
    destruct (r_peek (skip_ws st)) as (st1 & -> & R1). rewrite R0 in *. exists st1. split; [reflexivity |]. split; [exact R1 |]. rewrite R, (app_length a). lia.
  Qed.
  Lemma keyword_yields s v r st : ascii_text s -> remaining st = s ++ r -> yields (then_ (consume_str s st) (fun _ st2 => (Ok v, st2)) : res (value num) take_error * iw) v r.
  Proof. intros Hs R. destruct (r_consume_ok s st r Hs R) as (st' & -> & R'). exists st'. auto. Qed.
  Lemma brackets_yields {A} (collect : iw -> res A take_error * iw) (o c : char) (mk : A -> value num) l w r st :
    ascii_text [o] -> ascii_text [c] -> remaining st = [o] ++ (w ++ [c]) ++ r -> (forall st', remaining st' = w ++ [c] ++ r -> yields (collect st') l (c :: r)) ->
    yields (then_ (consume_str [o] st) (fun _ st2 => then_ (collect st2) (fun l st3 => then_ (consume_str [c] st3) (fun _ st4 => (Ok (mk l), st4)))) : res (value num) take_error * iw) (mk l) r.
  Proof.
    intros Ho Hc R H. destruct (r_consume_ok [o] st _ Ho R) as (st2 & -> & R2). unfold then_ at 1. cbn [fst snd]. rewrite <- app_assoc in R2.
    eapply then_yields; [apply H, R2 |]. intros st3 R3. destruct (r_consume_ok [c] st3 r Hc R3) as (st4 & -> & R4). exists st4. auto.
  Qed.
  Lemma collect_empty {A} (item : iw -> res A take_error * iw) sep stop sset first n st r : 0 < n -> remaining st = stop :: r ->
    yields (iter_collect item sep stop sset first n st) [] (stop :: r).
  Proof.
    intros Hn R. destruct n as [| n]; [lia |]. cbn [iter_collect]. unfold iter_next. destruct (r_peek st) as (st1 & -> & R1). rewrite R in *. cbn [hd_error]. rewrite N.eqb_refl. exists st1. auto.
  Qed.
  Lemma brackets_panic {A} (collect : iw -> res A take_error * iw) (o c : char) (mk : A -> value num) r st :
    ascii_text [o] -> remaining st = [o] ++ r -> (forall st', remaining st' = r -> fst (collect st') = Panic) ->
    fst (then_ (consume_str [o] st) (fun _ st2 => then_ (collect st2) (fun l st3 => then_ (consume_str [c] st3) (fun _ st4 => (Ok (mk l), st4)))) : res (value num) take_error * iw) = Panic.
  Proof.
    intros Ho R H. destruct (r_consume_ok [o] st _ Ho R) as (st2 & -> & R2). unfold then_ at 1. cbn [fst snd]. apply then_panics. now apply H.
  Qed.

  Definition completes n : Prop := forall w v r st, Padded D w v -> remaining st = w ++ r -> ends r -> length (remaining st) < n -> yields (take_value checks conv n st) v r.
  Lemma member_complete n : completes n -> forall w m r st, Member D w m -> remaining st = w ++ r -> ends r -> length (remaining st) < n -> yields (take_member checks (take_value checks conv n) n st) m r.
  Proof.
    intros IH w m r st [a q k b w' v Ha Hq Hb Hv] R Hr Hf. unfold take_member. rewrite <- !app_assoc in R.
    assert (R1 : remaining (skip_ws st) = q ++ b ++ lit ":" ++ w' ++ r).
    { apply (r_skip_ok st a _ R Ha), (stop_first is_ws [34%N]); [now apply quoted_first in Hq |]. intros c [<- | []]. reflexivity. }
    rewrite R, !app_length in Hf.
    eapply then_yields; [apply (parse_str_complete q k _ _ n Hq R1); rewrite R1, !app_length; lia |]. intros st1 R2.
    assert (R3 : remaining (skip_ws st1) = lit ":" ++ w' ++ r) by (apply (r_skip_ok st1 b _ R2 Hb); now apply stop_cons).
    destruct (r_consume_ok (lit ":") (skip_ws st1) (w' ++ r)) as (st4 & -> & R4); [repeat constructor | exact R3 |]. unfold then_ at 1. cbn [fst snd].
    eapply then_yields; [apply (IH w' v r st4 Hv R4 Hr); rewrite R4, app_length; lia |]. intros st5 R5. exists st5. auto.
  Qed.
  Theorem take_value_complete : forall n, completes n.
  Proof.
    induction n as [| n IH]; intros t v r st Ht R Hr Hf; [lia |]. destruct Ht as [a w b v Ha Hv Hb]. rewrite <- !app_assoc in R.
    cbn [take_value]. destruct (take_head st a w (b ++ r) Ha (val_first w v Hv) R) as (st1 & -> & R1 & Hl).
    assert (Hl1 : length (w ++ b ++ r) <= n) by lia. clear Hf Hl R st Ha a.
    eapply (then_yields _ v _ (b ++ r)); [| intros st2 R2; eexists; split; [reflexivity | now apply (r_skip_ok st2 b r R2 Hb), Hr]].
    destruct Hv as [| | | w x [Hw Hx] | w s Hw | w -> | w l Hl | w -> | w l Hl].
    - now apply (keyword_yields (lit "null")); [repeat constructor |].
    - now apply (keyword_yields (lit "true")); [repeat constructor |].
    - now apply (keyword_yields (lit "false")); [repeat constructor |].
    - destruct Hw as [c w Hc Hw]. cbn [app hd_error] in *.
      assert (En : in_range 48 57 c || N.eqb c (chr "-") = true) by (apply orb_true_iff; destruct Hc as [Hc | ->]; [left; now apply in_range_iff | right; reflexivity]).
      assert (Hx3 : forall d, is_number_char d = false -> c <> d).
      { intros d Hd ->. destruct Hc as [Hc | ->]; [| discriminate Hd]. assert (is_number_char d = true) by (apply is_number_char_iff; left; exact Hc). congruence. }
      rewrite (proj2 (N.eqb_neq c (chr "n"))) by now apply Hx3. rewrite (proj2 (N.eqb_neq c (chr "t"))) by now apply Hx3. rewrite (proj2 (N.eqb_neq c (chr "f"))) by now apply Hx3. rewrite En.
      destruct (r_next st1) as (st2 & E2 & R2). rewrite E2. cbn [snd]. rewrite R1 in R2. cbn [tl] in R2. cbn [length] in Hl1.
      destruct (number_run_spec n [c] st2) as (w2 & r2 & A & B & C & Hy); [rewrite R2; lia |]. rewrite R2 in A.
      assert (Hw' : Forall (fun c => is_number_char c = true) w) by (eapply Forall_impl; [| exact Hw]; intros d; apply is_number_char_iff).
      destruct (span_exact is_number_char _ _ _ _ A Hw' (ends_pad b r Hb Hr) B C) as [<- <-].
      eapply then_yields; [exact Hy |]. intros st3 R3. cbn [app]. rewrite Hx. exists st3. auto.
    - destruct (quoted_first w s Hw) as (c & w' & E & [<- | []]). rewrite E at 1. cbn [app hd_error]. cbn [chr lit N.eqb Pos.eqb in_range N.leb orb andb hd map].
      change (in_range 48 57 34 || (34 =? chr "-")%N) with false. cbn iota.
      eapply then_yields; [apply (parse_str_complete w s (b ++ r) st1 n Hw R1); rewrite R1; exact Hl1 |]. intros st2 R2. exists st2. auto.
    - cbn [app hd_error]. cbn in Hl1. change (yields (then_ (consume_str [chr "["] st1) (fun _ st2 => then_ (iter_collect (take_value checks conv n) (chr ",") (chr "]") (lit ",]") FIRST_WS n st2) (fun l st3 => then_ (consume_str [chr "]"] st3) (fun _ st4 => (Ok (JArray l), st4))))) (JArray []) (b ++ r)).
      apply (brackets_yields _ (chr "[") (chr "]") JArray [] []); [repeat constructor | repeat constructor | exact R1 |]. intros st' R'. apply collect_empty; [lia | exact R'].
    - cbn [app hd_error]. cbn in Hl1. change (yields (then_ (consume_str [chr "["] st1) (fun _ st2 => then_ (iter_collect (take_value checks conv n) (chr ",") (chr "]") (lit ",]") FIRST_WS n st2) (fun l st3 => then_ (consume_str [chr "]"] st3) (fun _ st4 => (Ok (JArray l), st4))))) (JArray l) (b ++ r)).
      apply (brackets_yields _ (chr "[") (chr "]") JArray l w); [repeat constructor | repeat constructor | exact R1 |]. intros st' R'.
      assert (Hst' : length (remaining st') <= n - 1) by (rewrite R'; rewrite !app_length in *; cbn [length] in *; lia).
      apply (collect_complete (take_value checks conv n) (chr ",") (chr "]") (lit ",]") FIRST_WS (Padded D) (n - 1) first_no_stop ltac:(discriminate) ends) with (w := w); auto.
      + intros r'. now apply ends_char.
      + intros r'. now apply ends_char.
      + apply padded_first.
      + intros w1 v1 r1 st2 H1 H2 H3 H4. apply (IH w1 v1 r1 st2 H1 H2 H3). rewrite !app_length in Hl1. cbn [length] in Hl1. lia.
      + now apply elements_sepby.
      + lia.
    - cbn [app hd_error]. cbn in Hl1. change (yields (then_ (consume_str [chr "{"] st1) (fun _ st2 => then_ (iter_collect (take_member checks (take_value checks conv n) n) (chr ",") (chr "}") (lit ",}") ([34%N] ++ WS) n st2) (fun l st3 => then_ (consume_str [chr "}"] st3) (fun _ st4 => (Ok (JObject l), st4))))) (JObject []) (b ++ r)).
      apply (brackets_yields _ (chr "{") (chr "}") JObject [] []); [repeat constructor | repeat constructor | exact R1 |]. intros st' R'. apply collect_empty; [lia | exact R'].
    - cbn [app hd_error]. cbn in Hl1. change (yields (then_ (consume_str [chr "{"] st1) (fun _ st2 => then_ (iter_collect (take_member checks (take_value checks conv n) n) (chr ",") (chr "}") (lit ",}") ([34%N] ++ WS) n st2) (fun l st3 => then_ (consume_str [chr "}"] st3) (fun _ st4 => (Ok (JObject l), st4))))) (JObject l) (b ++ r)).
      apply (brackets_yields _ (chr "{") (chr "}") JObject l w); [repeat constructor | repeat constructor | exact R1 |]. intros st' R'.
      assert (Hst' : length (remaining st') <= n - 1) by (rewrite R'; rewrite !app_length in *; cbn [length] in *; lia).
      apply (collect_complete (take_member checks (take_value checks conv n) n) (chr ",") (chr "}") (lit ",}") ([34%N] ++ WS) (Member D) (n - 1) first_no_stop_obj ltac:(discriminate) ends) with (w := w); auto.
      + intros r'. now apply ends_char.
      + intros r'. now apply ends_char.
      + apply member_first.
      + intros w1 v1 r1 st2 H1 H2 H3 H4. apply (member_complete n IH w1 v1 r1 st2 H1 H2 H3). rewrite !app_length in Hl1. cbn [length] in Hl1. lia.
      + now apply members_sepby.
      + lia.
  Qed.

  (** ** Panics *)
  Lemma doomed_string_first r : DoomedString D r -> exists c w', r = c :: w' /\ In c [34%N].
  Proof. intros [w s c r' _ _ | w s e r' _ _ _]; (eexists; eexists; split; [reflexivity | cbn; auto]). Qed.
  Lemma unreadable_first r : unreadable conv r -> exists c w', r = c :: w' /\ In c FIRST.
  Proof. intros [w r' [c w' Hc _] _ _]. exists c, (w' ++ r'). split; [reflexivity |]. now apply digit_first. Qed.
  Lemma string_first r : (exists c w', r = c :: w' /\ In c [34%N]) -> exists c w', r = c :: w' /\ In c FIRST.
  Proof. intros (c & w' & -> & [<- | []]). eexists; eexists. split; [reflexivity |]. now apply mem_char_In. Qed.
  Lemma bracket_first (s : rstr) c r : s = [c] -> mem_char c FIRST = true -> exists d w', s ++ r = d :: w' /\ In d FIRST.
  Proof. intros -> H. apply mem_char_In in H. exists c, r. auto. Qed.
  Lemma doomed_first r : Dm r -> exists c w', r = c :: w' /\ In c FIRST_WS.
  Proof.
    intros [a r' Ha H | a r' Ha H | a r' Ha H | a w l r' Ha _ H | a r' Ha H | a w l r' Ha _ H]; apply (pad_first FIRST); try exact Ha;
      try (now apply (bracket_first _ (chr "["))); try (now apply (bracket_first _ (chr "{"))).
    - now apply unreadable_first.
    - now apply string_first, doomed_string_first.
  Qed.
  Lemma doomed_member_first r : DmM r -> exists c w', r = c :: w' /\ In c ([34%N] ++ WS).
  Proof.
    intros [a r' Ha H | a q k b r' Ha Hq Hb H]; (apply pad_first; [exact Ha |]).
    - now apply doomed_string_first.
    - apply first_app. now apply quoted_first in Hq.
  Qed.

  Definition dooms n : Prop := forall st, Dm (remaining st) -> length (remaining st) < n -> fst (take_value checks conv n st) = Panic.
  Lemma member_doom n : dooms n -> forall st, DmM (remaining st) -> length (remaining st) < n -> fst (take_member checks (take_value checks conv n) n st) = Panic.
  Proof.
    intros IH st. assert (Ht : forall t, DmM t -> remaining st = t -> length t < n -> fst (take_member checks (take_value checks conv n) n st) = Panic); [| intros H1 H2; now apply (Ht (remaining st))].
    intros t H R Hf. unfold take_member. destruct H as [a r Ha H | a q k b r Ha Hq Hb H].
    - assert (R1 : remaining (skip_ws st) = r).
      { apply (r_skip_ok st a _ R Ha). rewrite <- (app_nil_r r). apply (stop_first is_ws [34%N]); [now apply doomed_string_first |]. intros c [<- | []]. reflexivity. }
      rewrite app_length in Hf. apply then_panics, parse_str_doom; rewrite R1; [exact H | lia].
    - assert (R1 : remaining (skip_ws st) = q ++ b ++ lit ":" ++ r).
      { apply (r_skip_ok st a _ R Ha), (stop_first is_ws [34%N]); [now apply quoted_first in Hq |]. intros c [<- | []]. reflexivity. }
      rewrite !app_length in Hf.
      eapply then_yields_panic; [apply (parse_str_complete q k _ _ n Hq R1); rewrite R1, !app_length; lia |]. intros st1 R2.
      assert (R3 : remaining (skip_ws st1) = lit ":" ++ r) by (apply (r_skip_ok st1 b _ R2 Hb); now apply stop_cons).
      destruct (r_consume_ok (lit ":") (skip_ws st1) r) as (st4 & -> & R4); [repeat constructor | exact R3 |]. unfold then_ at 1. cbn [fst snd].
      apply then_panics, IH; rewrite R4; [exact H | lia].
  Qed.
  Theorem take_value_doom : forall n, dooms n.
  Proof.
    induction n as [| n IH]; intros st; [lia |].
    assert (Ht : forall t, Dm t -> remaining st = t -> length t < S n -> fst (take_value checks conv (S n) st) = Panic); [| intros H1 H2; now apply (Ht (remaining st))].
    intros t H R Hf. cbn [take_value].
    assert (Harr : forall r st1,
      remaining st1 = [chr "["] ++ r -> length r < n ->
      (Dm r \/ exists w l r', Elements D w l /\ r = w ++ [chr ","] ++ r' /\ Dm r') ->
      fst (then_ (consume_str [chr "["] st1) (fun _ st2 => then_ (iter_collect (take_value checks conv n) (chr ",") (chr "]") (lit ",]") FIRST_WS n st2) (fun l st3 => then_ (consume_str [chr "]"] st3) (fun _ st4 => (Ok (JArray l), st4))))) = Panic).
    { intros r st1 R1 Hl Hd. apply (brackets_panic _ (chr "[") (chr "]") JArray r); [repeat constructor | exact R1 |]. intros st' R'.
      destruct Hd as [Hd | (w & l & r' & Hl' & E & Hd)].
      - apply (collect_doom (take_value checks conv n) (chr ",") (chr "]") (lit ",]") FIRST_WS Dm (n - 1) first_no_stop ltac:(discriminate)).
        + intros st2 H1 H2. apply IH; [exact H1 | lia].
        + exact doomed_first.
        + rewrite R'. exact Hd.
        + rewrite R'. lia.
        + rewrite R'. lia.
      - apply (collect_doom_later (take_value checks conv n) (chr ",") (chr "]") (lit ",]") FIRST_WS (Padded D) Dm (n - 1) first_no_stop ltac:(discriminate) ends) with (w := w) (l := l) (r := r').
        + intros r0. now apply ends_char.
        + apply padded_first.
        + intros w1 v1 r1 st2 H1 H2 H3 H4. apply (take_value_complete n w1 v1 r1 st2 H1 H2 H3). lia.
        + intros st2 H1 H2. apply IH; [exact H1 | lia].
        + exact doomed_first.
        + now apply elements_sepby.
        + now rewrite R'.
        + exact Hd.
        + rewrite R'. lia.
        + rewrite R'. lia. }
    assert (Hobj : forall r st1,
      remaining st1 = [chr "{"] ++ r -> length r < n ->
      (DmM r \/ exists w l r', Members D w l /\ r = w ++ [chr ","] ++ r' /\ DmM r') ->
      fst (then_ (consume_str [chr "{"] st1) (fun _ st2 => then_ (iter_collect (take_member checks (take_value checks conv n) n) (chr ",") (chr "}") (lit ",}") ([34%N] ++ WS) n st2) (fun l st3 => then_ (consume_str [chr "}"] st3) (fun _ st4 => (Ok (JObject l), st4))))) = Panic).
    { intros r st1 R1 Hl Hd. apply (brackets_panic _ (chr "{") (chr "}") JObject r); [repeat constructor | exact R1 |]. intros st' R'.
      destruct Hd as [Hd | (w & l & r' & Hl' & E & Hd)].
      - apply (collect_doom (take_member checks (take_value checks conv n) n) (chr ",") (chr "}") (lit ",}") ([34%N] ++ WS) DmM (n - 1) first_no_stop_obj ltac:(discriminate)).
        + intros st2 H1 H2. apply (member_doom n IH); [exact H1 | lia].
        + exact doomed_member_first.
        + rewrite R'. exact Hd.
        + rewrite R'. lia.
        + rewrite R'. lia.
      - apply (collect_doom_later (take_member checks (take_value checks conv n) n) (chr ",") (chr "}") (lit ",}") ([34%N] ++ WS) (Member D) DmM (n - 1) first_no_stop_obj ltac:(discriminate) ends) with (w := w) (l := l) (r := r').
        + intros r0. now apply ends_char.
        + apply member_first.
        + intros w1 v1 r1 st2 H1 H2 H3 H4. apply (member_complete n (take_value_complete n) w1 v1 r1 st2 H1 H2 H3). lia.
        + intros st2 H1 H2. apply (member_doom n IH); [exact H1 | lia].
        + exact doomed_member_first.
        + now apply members_sepby.
        + now rewrite R'.
        + exact Hd.
        + rewrite R'. lia.
        + rewrite R'. lia. }
    destruct H as [a r Ha H | a r Ha H | a r Ha H | a w l r Ha Hw H | a r Ha H | a w l r Ha Hw H]; rewrite app_length in Hf.
    - destruct (take_head st a r [] Ha (unreadable_first r H)) as (st1 & -> & R1 & _); [now rewrite app_nil_r |]. rewrite app_nil_r in *.
      apply then_panics. destruct H as [w r [c w' Hc Hw] Hx Hs]. cbn [app hd_error length] in *.
      assert (En : in_range 48 57 c || N.eqb c (chr "-") = true) by (apply orb_true_iff; destruct Hc as [Hc | ->]; [left; now apply in_range_iff | right; reflexivity]).
      assert (Hx3 : forall d, is_number_char d = false -> c <> d).
      { intros d Hd ->. destruct Hc as [Hc | ->]; [| discriminate Hd]. assert (is_number_char d = true) by (apply is_number_char_iff; left; exact Hc). congruence. }
      rewrite (proj2 (N.eqb_neq c (chr "n"))) by now apply Hx3. rewrite (proj2 (N.eqb_neq c (chr "t"))) by now apply Hx3. rewrite (proj2 (N.eqb_neq c (chr "f"))) by now apply Hx3. rewrite En.
      destruct (r_next st1) as (st2 & E2 & R2). rewrite E2. cbn [snd]. rewrite R1 in R2. cbn [tl] in R2.
      destruct (number_run_spec n [c] st2) as (w2 & r2 & A & B & C & Hy); [rewrite R2; lia |]. rewrite R2 in A.
      assert (Hw' : Forall (fun c => is_number_char c = true) w') by (eapply Forall_impl; [| exact Hw]; intros d; apply is_number_char_iff).
      assert (Hs' : stop_at is_number_char r) by (intros d Hd; destruct (is_number_char d) eqn:E; [elim (Hs d Hd); now apply is_number_char_iff | reflexivity]).
      destruct (span_exact is_number_char _ _ _ _ A Hw' Hs' B C) as [<- <-].
      eapply then_yields_panic; [exact Hy |]. intros st3 R3. cbn [app]. rewrite Hx. reflexivity.
    - destruct (take_head st a r [] Ha (string_first _ (doomed_string_first r H))) as (st1 & -> & R1 & _); [now rewrite app_nil_r |]. rewrite app_nil_r in *.
      apply then_panics. destruct (doomed_string_first r H) as (c & w' & E & [<- | []]). rewrite E at 1. cbn [hd_error].
      change (fst (then_ (parse_str checks n st1) (fun s st2 => (Ok (JString s : value num), st2))) = Panic).
      apply then_panics, parse_str_doom; rewrite R1; [exact H | lia].
    - destruct (take_head st a (lit "[" ++ r) [] Ha (bracket_first _ (chr "[") r eq_refl eq_refl)) as (st1 & -> & R1 & _); [now rewrite app_nil_r |]. rewrite app_nil_r in R1.
      apply then_panics. cbn [app hd_error]. cbn [length app lit] in Hf. rewrite app_length in Hf. cbn in Hf.
      apply (Harr r st1); [exact R1 | lia | left; exact H].
    - destruct (take_head st a (lit "[" ++ w ++ lit "," ++ r) [] Ha (bracket_first _ (chr "[") _ eq_refl eq_refl)) as (st1 & -> & R1 & _); [now rewrite app_nil_r |]. rewrite app_nil_r in R1.
      apply then_panics. cbn [app hd_error]. rewrite !app_length in Hf. cbn in Hf.
      apply (Harr (w ++ lit "," ++ r) st1); [exact R1 | rewrite !app_length; cbn; lia | right; exists w, l, r; auto].
    - destruct (take_head st a (lit "{" ++ r) [] Ha (bracket_first _ (chr "{") r eq_refl eq_refl)) as (st1 & -> & R1 & _); [now rewrite app_nil_r |]. rewrite app_nil_r in R1.
      apply then_panics. cbn [app hd_error]. rewrite app_length in Hf. cbn in Hf.
      apply (Hobj r st1); [exact R1 | lia | left; exact H].
    - destruct (take_head st a (lit "{" ++ w ++ lit "," ++ r) [] Ha (bracket_first _ (chr "{") _ eq_refl eq_refl)) as (st1 & -> & R1 & _); [now rewrite app_nil_r |]. rewrite app_nil_r in R1.
      apply then_panics. cbn [app hd_error]. rewrite !app_length in Hf. cbn in Hf.
      apply (Hobj (w ++ lit "," ++ r) st1); [exact R1 | rewrite !app_length; cbn; lia | right; exists w, l, r; auto].
  Qed.

  (** ** The whole reader *)
  Theorem parse_json_ok fuel s v : length s < fuel -> valid_text s -> (parse_json checks conv fuel s = Ok v <-> Padded D s v).
  Proof.
    intros Hf HV. unfold parse_json. rewrite parse_with_ok. pose proof (take_value_good fuel (iw_new s) Hf HV) as Hg. unfold good in Hg. split.
    - intros [E R]. rewrite E in Hg. destruct Hg as (w & Ew & Hw). rewrite R, app_nil_r in Ew. cbn in Ew. now subst w.
    - intros H. destruct (take_value_complete fuel s v [] (iw_new s) H) as (st' & E & R); [now rewrite app_nil_r | split; apply stop_nil | exact Hf |]. rewrite E. auto.
  Qed.
  Theorem parse_json_panic fuel s : length s < fuel -> valid_text s -> (parse_json checks conv fuel s = Panic <-> Dm s).
  Proof.
    intros Hf HV. unfold parse_json, parse_with. split.
    - pose proof (take_value_good fuel (iw_new s) Hf HV) as Hg. unfold good in Hg. destruct (take_value checks conv fuel (iw_new s)) as [[v | e | |] st']; cbn [fst snd] in Hg; try discriminate.
      + destruct (fst (iw_peek st')); discriminate.
      + intros _. exact Hg.
    - intros H. assert (E : fst (take_value checks conv fuel (iw_new s)) = Panic) by now apply take_value_doom.
      destruct (take_value checks conv fuel (iw_new s)) as [y st']. cbn [fst] in E. now subst y.
  Qed.
  Theorem parse_json_total fuel s : length s < fuel -> valid_text s -> parse_json checks conv fuel s <> OutOfFuel.
  Proof.
    intros Hf HV. unfold parse_json, parse_with. pose proof (take_value_good fuel (iw_new s) Hf HV) as Hg. unfold good in Hg.
    destruct (take_value checks conv fuel (iw_new s)) as [[v | e | |] st']; cbn [fst snd] in Hg; try discriminate; try contradiction. destruct (fst (iw_peek st')); discriminate.
  Qed.
End Reader.
