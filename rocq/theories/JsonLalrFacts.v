(** * JsonLalrFacts: LALRPOP's reading of JSON texts. *)
From Coq Require Import String ZArith.
From Verif Require Export JsonLalr SpecJsonLalr JsonGenFacts JsonPrint.
From Coq Require Import List Lia.
Open Scope list_scope.

(** ** Numbers *)
Lemma split_first (c : char) x : forall y x' y', x ++ c :: y = x' ++ c :: y' -> ~ In c x -> ~ In c x' -> x = x' /\ y = y'.
Proof.
  induction x as [| d x IH]; intros y [| d' x'] y' E Hx Hx'; cbn in E.
  - now injection E as ->.
  - injection E as <- _. cbn in Hx'. tauto.
  - injection E as -> _. cbn in Hx. tauto.
  - injection E as <- E. destruct (IH y x' y' E) as [-> ->]; [cbn in Hx; tauto | cbn in Hx'; tauto |]. auto.
Qed.
Lemma digits_no c ds : ~ digit c -> Forall digit ds -> ~ In c ds.
Proof. intros Hc H Hin. rewrite Forall_forall in H. now apply Hc, H. Qed.
Lemma int_no c sign int : ~ digit c -> c <> chr "-" -> opt (eq (lit "-")) sign -> (int = lit "0" \/ exists d ds, int = d :: ds /\ (49 <= d <= 57)%N /\ Forall digit ds) -> ~ In c (sign ++ int).
Proof.
  intros Hc Hm Hs Hi Hin. apply in_app_iff in Hin as [Hin | Hin].
  - destruct Hs as [-> | <-]; [destruct Hin |]. destruct Hin as [<- | []]. exact (Hm eq_refl).
  - destruct Hi as [-> | (d & ds & -> & Hd & Hds)].
    + destruct Hin as [<- | []]. apply Hc. unfold digit. cbn. lia.
    + destruct Hin as [<- | Hin]; [apply Hc; unfold digit; lia |]. now apply (digits_no c ds).
Qed.
Lemma not_digit c : (c < 48 \/ 57 < c)%N -> ~ digit c.
Proof. unfold digit. lia. Qed.
Definition exp_part (w : rstr) : Prop := exists e s ds, w = e :: s ++ ds /\ In e (lit "eE") /\ opt (fun x => x = lit "+" \/ x = lit "-") s /\ ds <> [] /\ Forall digit ds.
Lemma exp_no w : exp_part w -> ~ In (chr ".") w.
Proof.
  intros (e & s & ds & -> & He & Hs & _ & Hd) [E | Hin]; [subst e; vm_compute in He; intuition congruence |]. apply in_app_iff in Hin as [Hin | Hin].
  - destruct Hs as [-> | [-> | ->]]; vm_compute in Hin; intuition congruence.
  - revert Hin. apply digits_no; [| exact Hd]. apply not_digit. left. reflexivity.
Qed.
Lemma num_re_loose w : num_re w <-> LooseNumber w.
Proof.
  split.
  - intros [sign int frac exp Hs Hi Hf He].
    assert (He' : opt exp_part exp). { destruct He as [-> | (e & s & ds & -> & H1 & H2 & H3)]; [now left |]. right. exists e, s, ds. split; [reflexivity |]. split; [exact H1 |]. split; [| exact H3]. destruct H2 as [-> | [-> | ->]]; [left | right; right | right; left]; reflexivity. }
    destruct Hf as [-> | (ds & -> & Hds)]; [apply strict_number; constructor; auto; now left |].
    destruct ds as [| d ds].
    + replace (sign ++ int ++ (lit "." ++ []) ++ exp) with ((sign ++ int) ++ lit "." ++ exp) by now rewrite <- !app_assoc.
      apply bare_point.
      * intros c Hc. apply in_app_iff in Hc as [Hc | Hc].
        -- destruct Hs as [-> | <-]; [destruct Hc | destruct Hc as [<- | []]; now right].
        -- left. destruct Hi as [-> | (d & ds & -> & Hd & Hds')]; [destruct Hc as [<- | []]; unfold digit; cbn; lia |]. destruct Hc as [<- | Hc]; [unfold digit; lia |]. rewrite Forall_forall in Hds'. auto.
      * intros c Hc. destruct He' as [-> | (e & s & ds & -> & H1 & _)]; [discriminate Hc |]. injection Hc as <-. vm_compute in H1. apply not_digit. destruct H1 as [<- | [<- | []]]; right; reflexivity.
      * replace ((sign ++ int) ++ lit ".0" ++ exp) with (sign ++ int ++ lit ".0" ++ exp) by now rewrite <- !app_assoc.
        constructor; auto. right. exists (lit "0"). split; [reflexivity |]. split; [discriminate |]. constructor; [unfold digit; cbn; lia | constructor].
    + apply strict_number. constructor; auto. right. exists (d :: ds). split; [reflexivity |]. split; [discriminate | exact Hds].
  - assert (Hexp : forall exp, opt exp_part exp -> opt (fun w => exists e s ds, w = e :: s ++ ds /\ In e (lit "eE") /\ opt (fun x => x = lit "-" \/ x = lit "+") s /\ ds <> [] /\ Forall digit ds) exp).
    { intros exp [-> | (e & s & ds & -> & H1 & H2 & H3)]; [now left |]. right. exists e, s, ds. split; [reflexivity |]. split; [exact H1 |]. split; [| exact H3]. destruct H2 as [-> | [-> | ->]]; [left | right; right | right; left]; reflexivity. }
    intros [w' [sign int frac exp Hs Hi Hf He] | a b Ha Hb H].
    + constructor; auto. destruct Hf as [-> | (ds & -> & _ & Hds)]; [now left | right; eauto].
    + inversion H as [sign int frac exp Hs Hi Hf He E]. clear H. assert (Na : ~ In (chr ".") a).
      { intros Hin. destruct (Ha _ Hin) as [Hd | Hd]; [| discriminate Hd]. revert Hd. apply not_digit. left. reflexivity. }
      assert (Ni : ~ In (chr ".") (sign ++ int)) by (apply int_no; auto; [apply not_digit; left; reflexivity | discriminate]).
      assert (Ne : ~ In (chr ".") exp) by (destruct He as [-> | He]; [intros [] | now apply exp_no]).
      destruct Hf as [-> | (ds & -> & Hn & Hds)].
      * exfalso. assert (Hin : In (chr ".") (sign ++ int ++ [] ++ exp)) by (rewrite E; apply in_app_iff; right; now left).
        cbn [app] in Hin. rewrite app_assoc in Hin. apply in_app_iff in Hin. tauto.
      * assert (E' : (sign ++ int) ++ chr "." :: (ds ++ exp) = a ++ chr "." :: chr "0" :: b) by (rewrite <- app_assoc; exact E). clear E.
        destruct (split_first _ _ _ _ _ E' Ni Na) as [<- E2]. destruct ds as [| d ds]; [congruence |]. cbn [app] in E2. injection E2 as -> E2.
        assert (ds = []) as ->. { destruct ds as [| d ds]; [reflexivity |]. exfalso. subst b. apply Forall_cons_iff in Hds as [_ Hds]. apply Forall_cons_iff in Hds as [Hd _]. now apply (Hb d). }
        cbn [app] in E2. subst b. replace ((sign ++ int) ++ lit "." ++ exp) with (sign ++ int ++ (lit "." ++ []) ++ exp) by now rewrite <- !app_assoc.
        constructor; auto. right. exists []. split; [reflexivity | constructor].
Qed.
Lemma num_chars w : num_re w -> Forall number_char w.
Proof.
  assert (Hd : forall ds, Forall digit ds -> Forall number_char ds) by (intros ds; apply Forall_impl; intros c Hc; now left).
  assert (Hc : forall c, In c (lit "+-.eE") -> number_char c) by (intros c Hc; now right).
  intros [sign int frac exp Hs Hi Hf He]. repeat (apply Forall_app; split).
  - destruct Hs as [-> | <-]; [constructor |]. constructor; [apply Hc; cbn; auto | constructor].
  - destruct Hi as [-> | (c & ds & -> & H1 & H2)]; (constructor; [left; unfold digit; cbn; lia |]); [constructor | now apply Hd].
  - destruct Hf as [-> | (ds & -> & Hds)]; [constructor |]. constructor; [apply Hc; cbn; auto | now apply Hd].
  - destruct He as [-> | (e & s & ds & -> & Hin & Hsg & _ & Hds)]; [constructor |]. constructor; [apply Hc; cbn in *; tauto |]. apply Forall_app. split; [| now apply Hd].
    destruct Hsg as [-> | [-> | ->]]; [constructor | |]; (constructor; [apply Hc; cbn; auto | constructor]).
Qed.
Lemma num_head w : num_re w -> exists c w', w = c :: w' /\ (digit c \/ c = chr "-").
Proof.
  intros [sign int frac exp Hs Hi _ _]. destruct Hs as [-> | <-]; [| cbn; eauto]. cbn [app].
  destruct Hi as [-> | (c & ds & -> & H1 & H2)]; (do 2 eexists; split; [reflexivity | left; unfold digit; cbn; lia]).
Qed.

(** ** Strings *)
Lemma is_plain_iff c : is_plain c = true <-> (32 <= c <= max_char)%N /\ c <> quote /\ c <> backslash.
Proof. unfold is_plain, in_range, max_char, quote, backslash. rewrite !orb_true_iff, !andb_true_iff, !N.leb_le. lia. Qed.
Lemma body_prefix b : str_body b -> forall b' r r', str_body b' -> b ++ quote :: r = b' ++ quote :: r' -> b = b' /\ r = r'.
Proof.
  induction 1 as [| c b Hc Hq Hb IH | c b Hc Hb IH]; intros b' r r' Hb' E.
  - destruct Hb' as [| c' b' Hc' Hq' _ | c' b' _ _]; [injection E as ->; auto | injection E as E _; congruence | discriminate E].
  - destruct Hb' as [| c' b' Hc' Hq' Hb' | c' b' _ _]; cbn [app] in E; [injection E as E _; congruence | | injection E as E _; congruence].
    injection E as <- E. destruct (IH _ _ _ Hb' E) as [-> ->]. auto.
  - destruct Hb' as [| c' b' Hc' Hq' _ | c' b' _ Hb']; cbn [app] in E; [discriminate E | injection E as E _; congruence |].
    injection E as <- E. destruct (IH _ _ _ Hb' E) as [-> ->]. auto.
Qed.
Lemma str_prefix w w' r r' : str_re w -> str_re w' -> w ++ r = w' ++ r' -> w = w' /\ r = r'.
Proof.
  intros (b & -> & Hb) (b' & -> & Hb') E. cbn [app] in E. injection E as E. rewrite <- !app_assoc in E. cbn [app] in E.
  destruct (body_prefix b Hb _ _ _ Hb' E) as [-> ->]. auto.
Qed.
Lemma str_value_body b : str_value (quote :: b ++ [quote]) = unescape b.
Proof. unfold str_value. cbn [tl]. now rewrite removelast_last. Qed.
Lemma hex_digit_of_some c d : hex_digit_of c = Some d -> hex_digit c /\ d = hex_value c.
Proof.
  unfold hex_digit, hex_digit_of, hex_value, in_range. intros H.
  destruct (N.leb_spec 48 c), (N.leb_spec c 57), (N.leb_spec 97 c), (N.leb_spec c 102), (N.leb_spec 65 c), (N.leb_spec c 70); cbn [andb] in H; try discriminate H; injection H as <-; split; try reflexivity; lia.
Qed.
Lemma hex_digits_some s : forall acc n, hex_digits acc s = Some n -> Forall hex_digit s /\ n = fold_left (fun n c => 16 * n + hex_value c)%N s acc.
Proof.
  induction s as [| c s IH]; intros acc n E; [injection E as ->; auto |]. cbn [hex_digits] in E. destruct (hex_digit_of c) as [d |] eqn:D; [| discriminate E].
  apply hex_digit_of_some in D as [Hc ->]. destruct (_ <? _)%N; [| discriminate E]. apply IH in E as [H ->]. split; [now constructor | reflexivity].
Qed.
Lemma from_hex_some s n : from_hex s = Some n -> Forall hex_digit s /\ n = hex_number s.
Proof. destruct s as [| c s]; [discriminate |]. apply hex_digits_some. Qed.
Lemma from_hex3 h : length h = 3 -> Forall hex_digit h -> from_hex h = Some (hex_number h) /\ (hex_number h < 65536)%N.
Proof.
  intros Hl Hu. destruct h as [| c1 [| c2 [| c3 [| ? ?]]]]; try discriminate. rewrite !Forall_cons_iff in Hu. destruct Hu as (H1 & H2 & H3 & _).
  apply hex_digit_of_ok in H1 as [E1 B1], H2 as [E2 B2], H3 as [E3 B3]. unfold hex_number. cbn [fold_left].
  cbn [from_hex hex_digits]. rewrite E1, E2, E3. split; [| lia].
  rewrite (proj2 (N.ltb_lt _ _)) by lia. rewrite (proj2 (N.ltb_lt _ _)) by lia. rewrite (proj2 (N.ltb_lt _ _)) by lia. reflexivity.
Qed.
Lemma hex_not c : hex_digit c -> c <> chr "+" /\ c <> backslash /\ c <> quote.
Proof. unfold hex_digit, backslash, quote. change (chr "+") with 43%N. lia. Qed.
Lemma from_radix_iff u n : length u = 4 -> (from_radix u = Some n <-> unit_is u n).
Proof.
  intros Hl. split.
  - destruct u as [| c u]; [discriminate Hl |]. cbn [from_radix]. destruct (N.eqb_spec c (chr "+")) as [-> | Hc]; intros E; apply from_hex_some in E as [H ->].
    + apply unit_plus; [now injection Hl | exact H].
    + apply unit_digits. now split.
  - intros U. revert Hl. destruct U as [u' Hu | h H3 Hh]; intros Hl.
    + pose proof Hu as [_ Hd]. destruct u' as [| c u']; [discriminate Hl |]. apply Forall_cons_iff in Hd as [Hc _]. apply hex_not in Hc as [Hc _].
      cbn [from_radix]. destruct (N.eqb_spec c (chr "+")); [contradiction |]. now apply from_hex_ok.
    + cbn [from_radix]. rewrite N.eqb_refl. now apply from_hex3.
Qed.
Lemma unit_length u n : unit_is u n -> length u = 4.
Proof. intros [u' [Hl _] | h Hl _]; [exact Hl | cbn; now rewrite Hl]. Qed.
Lemma unit_bound u n : unit_is u n -> (n < 65536)%N.
Proof. intros [u' Hu | h Hl Hh]; [now apply from_hex_ok | now apply from_hex3]. Qed.
Lemma unit_chars u n : unit_is u n -> Forall (fun c => c <> backslash /\ c <> quote) u.
Proof.
  intros [u' [_ H] | h _ H]; [| constructor; [split; intros X; vm_compute in X; discriminate X |]]; eapply Forall_impl; try exact H; intros c Hc; apply hex_not in Hc; tauto.
Qed.
Lemma body_app u b : Forall (fun c => c <> backslash /\ c <> quote) u -> str_body b -> str_body (u ++ b).
Proof. induction 1 as [| c u [H1 H2] _ IH]; intros Hb; [exact Hb |]. cbn [app]. constructor; auto. Qed.
Lemma lalr_escape_iff e c : lalr_escape e = Some c <-> escape e c.
Proof.
  unfold lalr_escape, escape. cbn [In]. split.
  - repeat match goal with |- context [(e =? ?b)%N] => destruct (N.eqb_spec e b) as [-> |]; [intros [= <-]; auto 10 |] end. discriminate.
  - intros H. repeat (destruct H as [[= <- <-] | H]; [reflexivity |]). destruct H.
Qed.
Lemma four (u : rstr) : length u = 4 -> exists a b c d, u = [a; b; c; d].
Proof. destruct u as [| a [| b [| c [| d [| ? ?]]]]]; try discriminate. eauto. Qed.
Section Strings.
  Context {num : Type}.
  Variable conv : rstr -> option num.
  Notation D := (lalrpop conv).
  Lemma plain_unescape c b : plain D c -> unescape (c :: b) = push (Some c) (unescape b).
  Proof. intros H. cbn [unescape]. apply is_plain_iff in H. now rewrite H. Qed.
  Lemma unescape_u h1 h2 h3 h4 b : unescape (backslash :: chr "u" :: h1 :: h2 :: h3 :: h4 :: b) =
    match from_radix [h1; h2; h3; h4] with
    | Some v =>
      if is_surrogate v then
        match b with
        | x :: y :: g1 :: g2 :: g3 :: g4 :: b3 =>
          if N.eqb x 92 && N.eqb y (chr "u") then
            match from_radix [g1; g2; g3; g4] with
            | Some o => match decode_pair v o with Some n => push (char_of_u32 n) (unescape b3) | None => None end
            | None => None
            end
          else None
        | _ => None
        end
      else push (char_of_u32 v) (unescape b)
    | None => None
    end.
  Proof. reflexivity. Qed.
  Lemma unescape_e e b : e <> chr "u" -> unescape (backslash :: e :: b) = push (lalr_escape e) (unescape b).
  Proof. intros H. cbn [unescape]. destruct (N.eqb_spec e (chr "u")); [contradiction | reflexivity]. Qed.
  Lemma chars_read w s : Chars D w s -> str_body w /\ unescape w = Some s.
  Proof.
    induction 1 as [| c w s Hp _ [Hb IH] | e c w s He _ [Hb IH] | u c w s Hu _ [Hb IH]].
    - split; [constructor | reflexivity].
    - split; [destruct Hp as (_ & H1 & H2); now constructor |]. rewrite plain_unescape, IH by exact Hp. reflexivity.
    - assert (N : e <> chr "u" /\ e <> 10%N) by (unfold escape in He; cbn [In] in He; repeat (destruct He as [[= <- <-] | He]; [split; intros X; vm_compute in X; discriminate X |]); destruct He).
      split; [now apply body_escape |]. rewrite unescape_e by apply N. apply lalr_escape_iff in He. now rewrite He, IH.
    - assert (Hone : forall u n b, unit_is u n -> str_body b -> str_body (backslash :: chr "u" :: u ++ b)).
      { intros u' n b H1 H2. apply body_escape; [intros X; vm_compute in X; discriminate X |]. apply body_app; [now apply (unit_chars u' n) | exact H2]. }
      cbn [unicode lalrpop] in Hu. destruct Hu as [u n Hu Hn | u u' n n' Hu Hu' Hn Hn' | u u' n n' Hu Hu' Hn Hn'].
      + split; [now apply (Hone u n) |]. pose proof (unit_length _ _ Hu) as Hl. pose proof (unit_bound _ _ Hu) as B. apply from_radix_iff in Hu; [| exact Hl].
        apply four in Hl as (h1 & h2 & h3 & h4 & ->). cbn [app]. rewrite unescape_u, Hu. pose proof (proj2 (not_surrogate n) Hn) as ->.
        rewrite char_ok, IH; [reflexivity | exact Hn | unfold max_char; lia].
      + rewrite <- app_assoc. split; [apply (Hone u n _ Hu), (Hone u' n' w Hu' Hb) |].
        pose proof (unit_length _ _ Hu) as Hl. pose proof (unit_length _ _ Hu') as Hl'. apply from_radix_iff in Hu; [| exact Hl]. apply from_radix_iff in Hu'; [| exact Hl'].
        apply four in Hl as (h1 & h2 & h3 & h4 & ->). apply four in Hl' as (g1 & g2 & g3 & g4 & ->). cbn [app]. rewrite unescape_u, Hu.
        rewrite (proj2 (surrogate_iff n)) by (now left). change (N.eqb backslash 92 && N.eqb (chr "u") (chr "u")) with true. cbv iota.
        rewrite Hu', (proj2 (decode_pair_iff n n' _) (or_introl (conj Hn (conj Hn' eq_refl)))), IH.
        rewrite char_ok; [reflexivity | |]; unfold surrogate, high_surrogate, low_surrogate, pair_value, max_char in *; lia.
      + rewrite <- app_assoc. split; [apply (Hone u n _ Hu), (Hone u' n' w Hu' Hb) |].
        pose proof (unit_length _ _ Hu) as Hl. pose proof (unit_length _ _ Hu') as Hl'. apply from_radix_iff in Hu; [| exact Hl]. apply from_radix_iff in Hu'; [| exact Hl'].
        apply four in Hl as (h1 & h2 & h3 & h4 & ->). apply four in Hl' as (g1 & g2 & g3 & g4 & ->). cbn [app]. rewrite unescape_u, Hu.
        rewrite (proj2 (surrogate_iff n)) by (now right). change (N.eqb backslash 92 && N.eqb (chr "u") (chr "u")) with true. cbv iota.
        rewrite Hu', (proj2 (decode_pair_iff n n' _) (or_intror (conj Hn (conj Hn' eq_refl)))), IH.
        rewrite char_ok; [reflexivity | |]; unfold surrogate, high_surrogate, low_surrogate, pair_value, max_char in *; lia.
  Qed.
  Lemma push_some c s t : push c s = Some t -> exists c' s', c = Some c' /\ s = Some s' /\ t = c' :: s'.
  Proof. destruct c, s; try discriminate. intros [= <-]. eauto. Qed.
  Lemma char_some n c : char_of_u32 n = Some c -> c = n.
  Proof. unfold char_of_u32. destruct (_ || _); congruence. Qed.
  Lemma read_chars n : forall w s, length w <= n -> unescape w = Some s -> Chars D w s.
  Proof.
    induction n as [| n IH]; intros w s Hl E; (destruct w as [| c w]; [injection E as <-; constructor |]); [cbn in Hl; lia |]. cbn [length] in Hl.
    destruct (is_plain c) eqn:P.
    - apply is_plain_iff in P. rewrite plain_unescape in E by exact P. apply push_some in E as (c' & s' & [= <-] & E & ->). apply chars_plain; [exact P |]. apply IH; [lia | exact E].
    - destruct (N.eqb_spec c 92) as [-> | Hc]; [| cbn [unescape] in E; rewrite P in E; destruct (N.eqb_spec c 92); [contradiction | discriminate E]].
      destruct w as [| e w]; [discriminate E |]. cbn [length] in Hl. change 92%N with backslash in E |- *. destruct (N.eqb_spec e (chr "u")) as [-> | He].
      + destruct w as [| h1 [| h2 [| h3 [| h4 w]]]]; try discriminate E. cbn [length] in Hl. rewrite unescape_u in E. destruct (from_radix [h1; h2; h3; h4]) as [v |] eqn:R; [| discriminate E].
        apply from_radix_iff in R; [| reflexivity]. destruct (is_surrogate v) eqn:Sv.
        * destruct w as [| x [| y [| g1 [| g2 [| g3 [| g4 w]]]]]]; try discriminate E. cbn [length] in Hl.
          destruct (N.eqb_spec x 92) as [-> |]; [| discriminate E]. destruct (N.eqb_spec y (chr "u")) as [-> |]; [| discriminate E]. cbn [andb] in E.
          destruct (from_radix [g1; g2; g3; g4]) as [o |] eqn:R'; [| discriminate E]. apply from_radix_iff in R'; [| reflexivity].
          destruct (decode_pair v o) as [m |] eqn:Dm; [| discriminate E]. apply push_some in E as (c' & s' & Ec & E & ->). apply char_some in Ec as ->.
          change (backslash :: chr "u" :: h1 :: h2 :: h3 :: h4 :: 92%N :: chr "u" :: g1 :: g2 :: g3 :: g4 :: w) with (backslash :: chr "u" :: ([h1; h2; h3; h4] ++ backslash :: chr "u" :: [g1; g2; g3; g4]) ++ w).
          apply chars_unicode; [| apply IH; [lia | exact E]]. apply decode_pair_iff in Dm as [(H1 & H2 & ->) | (H1 & H2 & ->)]; [now apply loose_high_low | now apply loose_low_high].
        * apply push_some in E as (c' & s' & Ec & E & ->). apply char_some in Ec as ->.
          change (backslash :: chr "u" :: h1 :: h2 :: h3 :: h4 :: w) with (backslash :: chr "u" :: [h1; h2; h3; h4] ++ w).
          apply chars_unicode; [| apply IH; [lia | exact E]]. apply loose_one; [exact R | now apply not_surrogate].
      + rewrite unescape_e in E by exact He. apply push_some in E as (c' & s' & Ec & E & ->). apply lalr_escape_iff in Ec. apply chars_escape; [exact Ec |]. apply IH; [lia | exact E].
  Qed.
  Lemma quoted_iff w s : Quoted D w s <-> str_re w /\ str_value w = Some s.
  Proof.
    split.
    - intros [b s' H]. destruct (chars_read b s' H) as [Hb E]. split; [exists b; auto |]. now rewrite str_value_body.
    - intros [(b & -> & Hb) E]. rewrite str_value_body in E. constructor. now apply (read_chars (length b)).
  Qed.
End Strings.

(** ** Tokens *)
Definition kind (c : char) : nat := if N.eqb c quote then 2 else if decimal_digit c || N.eqb c (chr "-") then 1 else 0.
Definition kind_of (t : jtok) : nat := match t with TWord _ => 0 | TNum _ => 1 | TStr _ => 2 end.
Lemma lexes_head w t : lexes w t -> exists c w', w = c :: w' /\ white c = false /\ kind c = kind_of t.
Proof.
  intros [w' Hw | w' Hw | w' (b & -> & _)].
  - cbn [terminals map In] in Hw. repeat (destruct Hw as [<- | Hw]; [do 2 eexists; split; [reflexivity | split; reflexivity] |]). destruct Hw.
  - apply num_head in Hw as (c & w2 & -> & Hc). exists c, w2. split; [reflexivity |]. destruct Hc as [Hc | ->]; [| split; reflexivity].
    assert (Dc : decimal_digit c = true) by (unfold decimal_digit, digit in *; rewrite andb_true_iff, !N.leb_le; exact Hc). split.
    + destruct (white c) eqn:W; [| reflexivity]. unfold white in W. cbn [existsb fst snd] in W. unfold digit in Hc.
      repeat (apply orb_true_iff in W as [W | W]; [apply andb_true_iff in W as [W1 W2]; apply N.leb_le in W1, W2; lia |]). discriminate W.
    + unfold kind. destruct (N.eqb_spec c quote) as [-> |]; [unfold digit, quote in Hc; lia |]. now rewrite Dc.
  - exists quote, (b ++ [quote]). split; [reflexivity | split; reflexivity].
Qed.
Lemma lexes_text w t : lexes w t -> t = match kind_of t with 0 => TWord w | 1 => TNum w | _ => TStr w end.
Proof. now intros [w' _ | w' _ | w' _]. Qed.
Lemma lexes_fun w t t' : lexes w t -> lexes w t' -> t = t'.
Proof.
  intros H H'. rewrite (lexes_text _ _ H), (lexes_text _ _ H'). destruct (lexes_head _ _ H) as (c & x & -> & _ & K), (lexes_head _ _ H') as (c' & x' & E & _ & K').
  injection E as <- _. now rewrite <- K, <- K'.
Qed.
Lemma app_same_length (A : Type) (a b c d : list A) : a ++ b = c ++ d -> length a = length c -> a = c /\ b = d.
Proof.
  revert c. induction a as [| x a IH]; intros [| y c] E L; try discriminate L; [auto |]. cbn in E. injection E as -> E. injection L as L. destruct (IH c E L) as [-> ->]. auto.
Qed.
Lemma jlex_fun s ts : jlex s ts -> forall us, jlex s us -> ts = us.
Proof.
  induction 1 as [| c s ts W _ IH | w r t ts Ht Hm _ IH]; intros us Hu.
  - inversion Hu as [| | w r t us' Ht _ _ E]; [reflexivity |]. apply app_eq_nil in E as [-> ->]. apply lexes_head in Ht as (c & w' & E & _). discriminate E.
  - inversion Hu as [| c' s' us' W' Hu' | w r t us' Ht _ _ E]; subst.
    + now apply IH.
    + apply lexes_head in Ht as (c' & w' & -> & W' & _). cbn [app] in E. injection E as -> _. congruence.
  - inversion Hu as [E | c' s' us' W' Hu' E | w' r' t' us' Ht' Hm' Hu' E].
    + symmetry in E. apply app_eq_nil in E as [-> _]. apply lexes_head in Ht as (c & w' & E & _). discriminate E.
    + apply lexes_head in Ht as (c & w' & -> & W & _). cbn [app] in E. injection E as -> _. congruence.
    + subst us. assert (L : length w = length w').
      { pose proof (Hm w' r' t' (eq_sym E) Ht'). pose proof (Hm' w r t E Ht). lia. }
      destruct (app_same_length _ _ _ _ _ (eq_sym E) L) as [-> ->]. rewrite (lexes_fun _ _ _ Ht Ht'). f_equal. now apply IH.
Qed.

(** What may follow a number. *)
Definition ends (r : rstr) : Prop := forall c, hd_error r = Some c -> ~ number_char c.
Lemma word_prefix w w' r r' t : In w terminals -> lexes w' t -> w ++ r = w' ++ r' -> length w' <= length w.
Proof.
  intros Hw H' E. destruct (lexes_head _ _ (lexes_word w Hw)) as (c & x & Ew & _ & K). destruct (lexes_head _ _ H') as (c' & x' & Ew' & _ & K').
  assert (Ec : c = c') by (subst w w'; now injection E). subst c'. rewrite K in K'.
  assert (X : forall a b : rstr, In a terminals -> In b terminals -> hd_error a = hd_error b -> length b <= length a).
  { intros a b Ha Hb Eh. cbn [terminals map In] in Ha, Hb. repeat (destruct Ha as [<- | Ha]; [repeat (destruct Hb as [<- | Hb]; [first [discriminate Eh | cbn; lia] |]); destruct Hb |]). destruct Ha. }
  destruct H' as [w' Hw' | w' _ | w' _]; try discriminate K'. apply X; auto. now subst w w'.
Qed.
Lemma longest_word w r : In w terminals -> longest w r.
Proof. intros Hw w' r' t E Ht. now apply (word_prefix w w' r r' t). Qed.
Lemma same_kind w w' r r' t t' : lexes w t -> lexes w' t' -> w ++ r = w' ++ r' -> kind_of t = kind_of t'.
Proof.
  intros H H' E. destruct (lexes_head _ _ H) as (c & x & -> & _ & <-), (lexes_head _ _ H') as (c' & x' & -> & _ & <-). cbn [app] in E. now injection E as -> _.
Qed.
Lemma longest_num w r : num_re w -> ends r -> longest w r.
Proof.
  intros Hw He w' r' t E Ht. pose proof (same_kind _ _ _ _ _ _ (lexes_num w Hw) Ht E) as K. destruct Ht as [w' _ | w' Hw' | w' _]; try discriminate K.
  apply num_chars in Hw'. clear Hw K. revert w' E Hw'. induction w as [| c w IH]; intros [| c' w'] E Hw'; cbn [length]; try lia.
  - cbn [app] in E. subst r. apply Forall_cons_iff in Hw' as [Hc _]. now elim (He c' eq_refl).
  - cbn [app] in E. injection E as -> E. apply Forall_cons_iff in Hw' as [_ Hw']. specialize (IH w' E Hw'). lia.
Qed.
Lemma longest_str w r : str_re w -> longest w r.
Proof.
  intros Hw w' r' t E Ht. pose proof (same_kind _ _ _ _ _ _ (lexes_str w Hw) Ht E) as K. destruct Ht as [w' _ | w' _ | w' Hw']; try discriminate K.
  destruct (str_prefix _ _ _ _ Hw Hw' E) as [-> _]. reflexivity.
Qed.
Lemma jlex_whites a r us : Forall (fun c => white c = true) a -> jlex r us -> jlex (a ++ r) us.
Proof. induction 1 as [| c a W _ IH]; intros H; [exact H |]. cbn [app]. constructor; auto. Qed.
Lemma ws_white a : ws a -> Forall (fun c => white c = true) a.
Proof. apply Forall_impl. intros c Hc. cbn [In] in Hc. repeat (destruct Hc as [<- | Hc]; [reflexivity |]). destruct Hc. Qed.
Lemma ws_ends a r : ws a -> ends r -> ends (a ++ r).
Proof.
  intros [| c a' Hc _] He; [exact He |]. intros d [= <-] [Hd | Hd].
  - unfold digit in Hd. cbn [In] in Hc. lia.
  - cbn in Hd, Hc. repeat (destruct Hc as [<- | Hc]; [intuition discriminate |]). destruct Hc.
Qed.
Lemma ends_cons c r : kind c = 0 -> In [c] terminals -> ends (c :: r).
Proof.
  intros _ H d [= <-]. cbn [terminals map In] in H. repeat (destruct H as [E | H]; [first [discriminate E | injection E as <-; intros [Hd | Hd]; [unfold digit in Hd; cbn in Hd; lia | cbn in Hd; intuition discriminate]] |]). destruct H.
Qed.
Lemma jlex_word w r us : In w terminals -> jlex r us -> jlex (w ++ r) (TWord w :: us).
Proof. intros Hw H. constructor; [now constructor | now apply longest_word | exact H]. Qed.

(** ** From texts to sentences *)
Section Values.
  Context {num : Type}.
  Variable conv : rstr -> option num.
  Notation D := (lalrpop conv).
  Definition read_as (w : rstr) (ts : list jtok) : Prop := forall r us, ends r -> jlex r us -> jlex (w ++ r) (ts ++ us).
  Lemma read_ws a w b ts : ws a -> read_as w ts -> ws b -> read_as (a ++ w ++ b) ts.
  Proof.
    intros Ha Hw Hb r us He Hr. rewrite <- !app_assoc. apply jlex_whites; [now apply ws_white |]. apply Hw; [now apply ws_ends |]. apply jlex_whites; [now apply ws_white | exact Hr].
  Qed.
  Lemma read_word s : In (lit s) terminals -> read_as (lit s) [jword s].
  Proof. intros Hs r us _ Hr. cbn [app]. now apply jlex_word. Qed.
  Lemma read_app w c ts us v : In [c] terminals -> read_as w ts -> read_as v us -> read_as (w ++ [c] ++ v) (ts ++ TWord [c] :: us).
  Proof.
    intros Hc Hw Hv r xs He Hr. rewrite <- !app_assoc. cbn [app]. apply Hw; [apply ends_cons; [| exact Hc] |].
    - cbn [terminals map In] in Hc. repeat (destruct Hc as [E | Hc]; [first [discriminate E | injection E as <-; reflexivity] |]). destruct Hc.
    - apply (jlex_word [c]); [exact Hc |]. now apply Hv.
  Qed.
  Lemma texts_read :
    (forall w v, Val D w v -> exists ts, JValue conv ts (Some v) /\ read_as w ts) /\
    (forall w v, Padded D w v -> exists ts, JValue conv ts (Some v) /\ read_as w ts) /\
    (forall w l, Elements D w l -> exists ts, JValues conv ts (Some l) /\ read_as w ts) /\
    (forall w m, Member D w m -> exists q ts, JValue conv ts (Some (snd m)) /\ str_value q = Some (fst m) /\ read_as w (TStr q :: jword ":" :: ts)) /\
    (forall w l, Members D w l -> exists ts, JMembers conv ts (Some l) /\ read_as w ts).
  Proof.
    apply (texts_min num D (fun w v => exists ts, JValue conv ts (Some v) /\ read_as w ts) (fun w v => exists ts, JValue conv ts (Some v) /\ read_as w ts)
      (fun w l => exists ts, JValues conv ts (Some l) /\ read_as w ts)
      (fun w m => exists q ts, JValue conv ts (Some (snd m)) /\ str_value q = Some (fst m) /\ read_as w (TStr q :: jword ":" :: ts))
      (fun w l => exists ts, JMembers conv ts (Some l) /\ read_as w ts)).
    - exists [jword "null"]. split; [constructor | apply read_word; cbn; auto 10].
    - exists [jword "true"]. split; [constructor | apply read_word; cbn; auto 10].
    - exists [jword "false"]. split; [constructor | apply read_word; cbn; auto 10].
    - intros w n [Hw E]. apply num_re_loose in Hw. exists [TNum w]. split; [pose proof (jv_num conv w) as X; now rewrite E in X |].
      intros r us He Hr. cbn [app]. constructor; [now constructor | now apply longest_num | exact Hr].
    - intros w s Hs. apply quoted_iff in Hs as [Hw E]. exists [TStr w]. split; [pose proof (jv_str conv w) as X; now rewrite E in X |].
      intros r us He Hr. cbn [app]. constructor; [now constructor | now apply longest_str | exact Hr].
    - intros w Hw. exists [jword "["; jword "]"]. split; [constructor |]. intros r us He Hr. rewrite <- !app_assoc.
      apply jlex_word; [cbn; auto 10 |]. apply jlex_whites; [now apply ws_white |]. apply jlex_word; [cbn; auto 10 | exact Hr].
    - intros w l _ (ts & Ht & Hr). exists (jword "[" :: ts ++ [jword "]"]). split; [exact (jv_array conv ts (Some l) Ht) |]. intros r us He Hu. rewrite <- !app_assoc. cbn [app].
      apply (jlex_word (lit "[")); [cbn; auto 10 |]. rewrite <- app_assoc. apply Hr; [apply (ends_cons (chr "]")); cbn; auto 10 |]. apply jlex_word; [cbn; auto 10 | exact Hu].
    - intros w Hw. exists [jword "{"; jword "}"]. split; [constructor |]. intros r us He Hr. rewrite <- !app_assoc.
      apply jlex_word; [cbn; auto 10 |]. apply jlex_whites; [now apply ws_white |]. apply jlex_word; [cbn; auto 10 | exact Hr].
    - intros w l _ (ts & Ht & Hr). exists (jword "{" :: ts ++ [jword "}"]). split; [exact (jv_object conv ts (Some l) Ht) |]. intros r us He Hu. rewrite <- !app_assoc. cbn [app].
      apply (jlex_word (lit "{")); [cbn; auto 10 |]. rewrite <- app_assoc. apply Hr; [apply (ends_cons (chr "}")); cbn; auto 10 |]. apply jlex_word; [cbn; auto 10 | exact Hu].
    - intros a w b v Ha _ (ts & Ht & Hr) Hb. exists ts. split; [exact Ht | now apply read_ws].
    - intros w v _ (ts & Ht & Hr). exists ts. split; [exact (jvs_one conv ts (Some v) Ht) | exact Hr].
    - intros w v w' l _ (ts & Ht & Hr) _ (us & Hu & Hr'). exists (ts ++ jword "," :: us). split; [exact (jvs_more conv ts (Some v) us (Some l) Ht Hu) |].
      apply (read_app w (chr ",") ts us w'); [cbn; auto 10 | exact Hr | exact Hr'].
    - intros a q k b w v Ha Hq Hb _ (ts & Ht & Hr). apply quoted_iff in Hq as [Hw E]. exists q, ts. cbn [fst snd]. split; [exact Ht |]. split; [exact E |].
      intros r us He Hu. rewrite <- !app_assoc. apply jlex_whites; [now apply ws_white |]. cbn [app]. constructor; [now constructor | now apply longest_str |].
      apply jlex_whites; [now apply ws_white |]. apply (jlex_word (lit ":")); [cbn; auto 10 |]. now apply Hr.
    - intros w [k v] _ (q & ts & Ht & E & Hr). cbn [fst snd] in *. exists (TStr q :: jword ":" :: ts). split; [| exact Hr].
      pose proof (jms_one conv q ts (Some v) Ht) as X. unfold jentry in X. rewrite E in X. exact X.
    - intros w [k v] w' l _ (q & ts & Ht & E & Hr) _ (us & Hu & Hr'). cbn [fst snd] in *. exists (TStr q :: jword ":" :: ts ++ jword "," :: us). split.
      + pose proof (jms_more conv q ts (Some v) us (Some l) Ht Hu) as X. unfold jentry in X. rewrite E in X. exact X.
      + apply (read_app w (chr ",") (TStr q :: jword ":" :: ts) us w'); [cbn; auto 10 | exact Hr | exact Hr'].
  Qed.
  Lemma lalr_complete s v : Padded D s v -> json_lalr_reads conv s (Some v).
  Proof.
    intros H. destruct (proj1 (proj2 texts_read) s v H) as (ts & Ht & Hr). exists ts. split; [| exact Ht].
    specialize (Hr [] []). rewrite !app_nil_r in Hr. apply Hr; [discriminate | constructor].
  Qed.

  (** ** From sentences to texts *)
  Lemma jlex_none s : jlex s [] -> Forall (fun c => white c = true) s.
  Proof.
    remember [] as ts eqn:E. induction 1 as [| c s ts W _ IH | w r t ts _ _ _ _]; [constructor | constructor; auto | discriminate E].
  Qed.
  Lemma longest_less w a b : longest w (a ++ b) -> longest w a.
  Proof. intros H w' r' t E Ht. apply (H w' (r' ++ b) t); [| exact Ht]. now rewrite !app_assoc, E. Qed.
  Lemma jlex_split s xs : jlex s xs -> forall ts t us, xs = ts ++ t :: us -> exists a w r, s = a ++ w ++ r /\ jlex a ts /\ lexes w t /\ jlex r us.
  Proof.
    induction 1 as [| c s xs W _ IH | w r t0 xs Ht Hm Hr IH]; intros ts t us E.
    - destruct ts; discriminate E.
    - destruct (IH ts t us E) as (a & w & r & -> & Ha & Hw & Hr). exists (c :: a), w, r. repeat split; auto. now constructor.
    - destruct ts as [| t1 ts]; cbn [app] in E; injection E as <- E.
      + subst xs. exists [], w, r. repeat split; auto. constructor.
      + destruct (IH ts t us E) as (a & w' & r' & -> & Ha & Hw & Hr'). exists (w ++ a), w', r'. rewrite <- app_assoc. repeat split; auto. constructor; auto. now apply (longest_less _ a (w' ++ r')).
  Qed.
  Lemma jlex_head s t us : jlex s (t :: us) -> exists a w r, s = a ++ w ++ r /\ Forall (fun c => white c = true) a /\ lexes w t /\ jlex r us.
  Proof. intros H. destruct (jlex_split s _ H [] t us eq_refl) as (a & w & r & E & Ha & Hw & Hr). apply jlex_none in Ha. eauto 7. Qed.
  Notation respaced := (respaced white).
  Lemma respaced_refl w : respaced w w.
  Proof. induction w; constructor; auto. Qed.
  Lemma respaced_app a a' b b' : respaced a a' -> respaced b b' -> respaced (a ++ b) (a' ++ b').
  Proof. apply Forall2_app. Qed.
  Lemma respaced_white a : Forall (fun c => white c = true) a -> exists a', respaced a a' /\ ws a'.
  Proof.
    induction 1 as [| c a W _ (a' & Ha & Hw)]; [exists []; split; constructor |].
    destruct (in_dec N.eq_dec c [32; 9; 10; 13]%N) as [Hc | Hc].
    - exists (c :: a'). split; constructor; auto.
    - exists (32%N :: a'). split; constructor; auto; [| now left]. right. repeat split; auto. intros X. apply Forall_cons_iff in X as [X _]. contradiction.
  Qed.
  Definition spelled (P : rstr -> Prop) (s : rstr) : Prop := exists s', respaced s s' /\ P s'.
  Lemma lexes_word_inv w s : lexes w (jword s) -> w = lit s.
  Proof. intros H. inversion H. reflexivity. Qed.
  Lemma pad s t x : jlex s [t] -> (forall w, lexes w t -> Val D w x) -> spelled (fun s' => Padded D s' x) s.
  Proof.
    intros H Hv. apply jlex_head in H as (a & w & r & -> & Ha & Hw & Hr). apply jlex_none in Hr. apply respaced_white in Ha as (a' & Ra & Ha). apply respaced_white in Hr as (r' & Rr & Hr).
    exists (a' ++ w ++ r'). split; [apply respaced_app; [exact Ra |]; apply respaced_app; [apply respaced_refl | exact Rr] |]. constructor; auto.
  Qed.
  Lemma spell_brackets (o c : string) ts x (P : rstr -> Prop) s : jlex s (jword o :: ts ++ [jword c]) ->
    (forall s1, jlex s1 ts -> spelled P s1) -> (forall w, P w -> Val D (lit o ++ w ++ lit c) x) -> spelled (fun s' => Padded D s' x) s.
  Proof.
    intros H HP Hv. apply jlex_head in H as (a & w & r & -> & Ha & Hw & Hr). apply lexes_word_inv in Hw as ->.
    destruct (jlex_split _ _ Hr ts (jword c) [] eq_refl) as (a1 & w & r1 & -> & Ha1 & Hw & Hr1). apply lexes_word_inv in Hw as ->. apply jlex_none in Hr1.
    apply respaced_white in Ha as (a' & Ra & Ha). apply respaced_white in Hr1 as (r' & Rr & Hr1). destruct (HP a1 Ha1) as (s1 & R1 & H1).
    exists (a' ++ (lit o ++ s1 ++ lit c) ++ r'). split; [| constructor; auto].
    rewrite <- !app_assoc. repeat (apply respaced_app; [first [assumption | apply respaced_refl] |]). exact Rr.
  Qed.
  Lemma strict_cons_some {A} (x : option A) l m : strict_cons x l = Some m -> exists a b, x = Some a /\ l = Some b /\ m = a :: b.
  Proof. destruct x, l; try discriminate. intros [= <-]. eauto. Qed.
  Lemma entry_some w (v : option (value num)) m : jentry w v = Some m -> exists k x, str_value w = Some k /\ v = Some x /\ m = (k, x).
  Proof. unfold jentry. destruct (str_value w), v; try discriminate. intros [= <-]. eauto. Qed.
  Lemma spell_member q ts v k s : (forall s1, jlex s1 ts -> spelled (fun s' => Padded D s' v) s1) -> str_value q = Some k -> jlex s (TStr q :: jword ":" :: ts) ->
    spelled (fun s' => Member D s' (k, v)) s.
  Proof.
    intros HP E H. apply jlex_head in H as (a & w & r & -> & Ha & Hw & Hr). inversion Hw as [| | w' Hq X]. subst w' w. clear Hw.
    apply jlex_head in Hr as (b & w & r1 & -> & Hb & Hw & Hr). apply lexes_word_inv in Hw as ->. destruct (HP r1 Hr) as (s1 & R1 & H1).
    apply respaced_white in Ha as (a' & Ra & Ha). apply respaced_white in Hb as (b' & Rb & Hb).
    exists (a' ++ q ++ b' ++ lit ":" ++ s1). split; [repeat (apply respaced_app; [first [assumption | apply respaced_refl] |]); exact R1 |].
    constructor; auto. now apply quoted_iff.
  Qed.
  Lemma sentences_spelled :
    (forall ts v, JValue conv ts v -> forall x s, v = Some x -> jlex s ts -> spelled (fun s' => Padded D s' x) s) /\
    (forall ts l, JValues conv ts l -> forall x s, l = Some x -> jlex s ts -> spelled (fun s' => Elements D s' x) s) /\
    (forall ts l, JMembers conv ts l -> forall x s, l = Some x -> jlex s ts -> spelled (fun s' => Members D s' x) s).
  Proof.
    apply (json_lalr_min num conv (fun ts v => forall x s, v = Some x -> jlex s ts -> spelled (fun s' => Padded D s' x) s)
      (fun ts l => forall x s, l = Some x -> jlex s ts -> spelled (fun s' => Elements D s' x) s) (fun ts l => forall x s, l = Some x -> jlex s ts -> spelled (fun s' => Members D s' x) s)).
    - intros x s [= <-] H. apply (pad _ _ _ H). intros w Hw. apply lexes_word_inv in Hw as ->. constructor.
    - intros x s [= <-] H. apply (pad _ _ _ H). intros w Hw. apply lexes_word_inv in Hw as ->. constructor.
    - intros x s [= <-] H. apply (pad _ _ _ H). intros w Hw. apply lexes_word_inv in Hw as ->. constructor.
    - intros n x s E H. destruct (conv n) as [z |] eqn:C; [| discriminate E]. injection E as <-. apply (pad _ _ _ H). intros w Hw. inversion Hw as [| w' Hn X |]. subst w' w. apply val_number. split; [now apply num_re_loose | exact C].
    - intros q x s E H. destruct (str_value q) as [z |] eqn:C; [| discriminate E]. injection E as <-. apply (pad _ _ _ H). intros w Hw. inversion Hw as [| | w' Hq X]. subst w' w. apply val_string. now apply quoted_iff.
    - intros x s [= <-] H. apply (spell_brackets "[" "]" [] _ ws s H); [| intros w Hw; now apply val_array0]. intros s1 H1. apply jlex_none, respaced_white in H1 as (a' & R & Ha). exists a'. auto.
    - intros ts l _ IH x s E H. destruct l as [l |]; [| discriminate E]. injection E as <-. apply (spell_brackets "[" "]" ts _ (fun w => Elements D w l) s H); [| intros w Hw; now apply val_array]. intros s1 H1. now apply IH.
    - intros x s [= <-] H. apply (spell_brackets "{" "}" [] _ ws s H); [| intros w Hw; now apply val_object0]. intros s1 H1. apply jlex_none, respaced_white in H1 as (a' & R & Ha). exists a'. auto.
    - intros ts l _ IH x s E H. destruct l as [l |]; [| discriminate E]. injection E as <-. apply (spell_brackets "{" "}" ts _ (fun w => Members D w l) s H); [| intros w Hw; now apply val_object]. intros s1 H1. now apply IH.
    - intros ts v _ IH x s E H. apply strict_cons_some in E as (y & l & -> & [= <-] & ->). destruct (IH y s eq_refl H) as (s' & R & Hs). exists s'. split; [exact R |]. now apply elements_one.
    - intros ts v us l _ IH _ IHl x s E H. apply strict_cons_some in E as (y & m & -> & -> & ->). destruct (jlex_split _ _ H ts (jword ",") us eq_refl) as (a & w & r & -> & Ha & Hw & Hr). apply lexes_word_inv in Hw as ->.
      destruct (IH y a eq_refl Ha) as (a' & Ra & Ha'), (IHl m r eq_refl Hr) as (r' & Rr & Hr'). exists (a' ++ lit "," ++ r'). split; [| now apply elements_more].
      apply respaced_app; [exact Ra |]. apply respaced_app; [apply respaced_refl | exact Rr].
    - intros q ts v _ IH x s E H. apply strict_cons_some in E as (y & l & E & [= <-] & ->). apply entry_some in E as (k & z & Ek & -> & ->).
      destruct (spell_member q ts z k s (fun s1 => IH z s1 eq_refl) Ek H) as (s' & R & Hs). exists s'. split; [exact R | now apply members_one].
    - intros q ts v us l _ IH _ IHl x s E H. apply strict_cons_some in E as (y & m & E & -> & ->). apply entry_some in E as (k & z & Ek & -> & ->).
      destruct (jlex_split _ _ H (TStr q :: jword ":" :: ts) (jword ",") us eq_refl) as (a & w & r & -> & Ha & Hw & Hr). apply lexes_word_inv in Hw as ->.
      destruct (spell_member q ts z k a (fun s1 => IH z s1 eq_refl) Ek Ha) as (a' & Ra & Ha'), (IHl m r eq_refl Hr) as (r' & Rr & Hr').
      exists (a' ++ lit "," ++ r'). split; [| now apply members_more]. apply respaced_app; [exact Ra |]. apply respaced_app; [apply respaced_refl | exact Rr].
  Qed.
  Lemma lalr_sound s v : json_lalr_reads conv s (Some v) -> exists s', respaced s s' /\ Padded D s' v.
  Proof. intros (ts & H & Hv). exact (proj1 sentences_spelled ts _ Hv v s eq_refl H). Qed.

  (** ** A text has at most one value *)
  Lemma value_start ts v : JValue conv ts v -> exists t ts', ts = t :: ts' /\ t <> jword "]".
  Proof. intros [| | | w | w | | ts' l _ | | ts' l _]; do 2 eexists; (split; [reflexivity |]); intros X; vm_compute in X; discriminate X. Qed.
  Lemma values_start ts l : JValues conv ts l -> exists t ts', ts = t :: ts' /\ t <> jword "]".
  Proof.
    intros [ts' v H | ts' v us m H _]; apply value_start in H as (t & x & -> & Ht); [eauto |]. cbn [app]. eauto.
  Qed.
  Lemma members_start ts l : JMembers conv ts l -> exists q ts', ts = TStr q :: ts'.
  Proof. intros [q ts' v _ | q ts' v us m _ _]; eauto. Qed.
  Lemma sentences_one :
    (forall ts v, JValue conv ts v -> forall us w r r', JValue conv us w -> ts ++ r = us ++ r' -> ts = us /\ v = w) /\
    (forall ts l, JValues conv ts l -> forall us m r r', JValues conv us m -> ts ++ jword "]" :: r = us ++ jword "]" :: r' -> ts = us /\ l = m) /\
    (forall ts l, JMembers conv ts l -> forall us m r r', JMembers conv us m -> ts ++ jword "}" :: r = us ++ jword "}" :: r' -> ts = us /\ l = m).
  Proof.
    apply (json_lalr_min num conv (fun ts v => forall us w r r', JValue conv us w -> ts ++ r = us ++ r' -> ts = us /\ v = w)
      (fun ts l => forall us m r r', JValues conv us m -> ts ++ jword "]" :: r = us ++ jword "]" :: r' -> ts = us /\ l = m)
      (fun ts l => forall us m r r', JMembers conv us m -> ts ++ jword "}" :: r = us ++ jword "}" :: r' -> ts = us /\ l = m)).
    - intros us w r r' H E. inversion H; subst; cbn [app] in E; try discriminate E. auto.
    - intros us w r r' H E. inversion H; subst; cbn [app] in E; try discriminate E. auto.
    - intros us w r r' H E. inversion H; subst; cbn [app] in E; try discriminate E. auto.
    - intros n us w r r' H E. inversion H; subst; cbn [app] in E; try discriminate E. injection E as -> _. auto.
    - intros n us w r r' H E. inversion H; subst; cbn [app] in E; try discriminate E. injection E as -> _. auto.
    - intros us w r r' H E. inversion H as [| | | | | | ts l Hl | | ]; subst; cbn [app] in E; try discriminate E; auto.
      injection E as E. exfalso. apply values_start in Hl as (t & x & -> & Ht). cbn [app] in E. injection E as E _. congruence.
    - intros ts l Hl IH us w r r' H E. inversion H as [| | | | | | ts' l' Hl' | | ]; subst; cbn [app] in E; try discriminate E; injection E as E.
      + exfalso. apply values_start in Hl as (t & x & -> & Ht). cbn [app] in E. injection E as E _. congruence.
      + rewrite <- !app_assoc in E. cbn [app] in E. destruct (IH _ _ _ _ Hl' E) as [-> ->]. auto.
    - intros us w r r' H E. inversion H as [| | | | | | | | ts l Hl]; subst; cbn [app] in E; try discriminate E; auto.
      injection E as E. exfalso. apply members_start in Hl as (t & x & ->). cbn [app] in E. discriminate E.
    - intros ts l Hl IH us w r r' H E. inversion H as [| | | | | | | | ts' l' Hl']; subst; cbn [app] in E; try discriminate E; injection E as E.
      + exfalso. apply members_start in Hl as (t & x & ->). cbn [app] in E. discriminate E.
      + rewrite <- !app_assoc in E. cbn [app] in E. destruct (IH _ _ _ _ Hl' E) as [-> ->]. auto.
    - intros ts v Hv IH us m r r' H E. inversion H as [ts' v' Hv' | ts' v' us' l' Hv' Hl']; subst.
      + destruct (IH _ _ _ _ Hv' E) as [-> ->]. auto.
      + rewrite <- app_assoc in E. destruct (IH _ _ _ _ Hv' E) as [-> ->]. apply app_inv_head in E. discriminate E.
    - intros ts v us1 l1 Hv IH Hl IHl us m r r' H E. rewrite <- app_assoc in E. inversion H as [ts' v' Hv' | ts' v' us' l' Hv' Hl']; subst.
      + destruct (IH _ _ _ _ Hv' E) as [-> ->]. apply app_inv_head in E. discriminate E.
      + rewrite <- app_assoc in E. destruct (IH _ _ _ _ Hv' E) as [-> ->]. apply app_inv_head in E. cbn [app] in E. injection E as E.
        destruct (IHl _ _ _ _ Hl' E) as [-> ->]. auto.
    - intros q ts v Hv IH us m r r' H E. inversion H as [q' ts' v' Hv' | q' ts' v' us' l' Hv' Hl']; subst; cbn [app] in E; injection E as -> E.
      + destruct (IH _ _ _ _ Hv' E) as [-> ->]. auto.
      + rewrite <- app_assoc in E. destruct (IH _ _ _ _ Hv' E) as [-> ->]. apply app_inv_head in E. discriminate E.
    - intros q ts v us1 l1 Hv IH Hl IHl us m r r' H E. cbn [app] in E. rewrite <- app_assoc in E. inversion H as [q' ts' v' Hv' | q' ts' v' us' l' Hv' Hl']; subst; cbn [app] in E; injection E as -> E.
      + destruct (IH _ _ _ _ Hv' E) as [-> ->]. apply app_inv_head in E. discriminate E.
      + rewrite <- app_assoc in E. destruct (IH _ _ _ _ Hv' E) as [-> ->]. apply app_inv_head in E. cbn [app] in E. injection E as E.
        destruct (IHl _ _ _ _ Hl' E) as [-> ->]. auto.
  Qed.
  Lemma lalr_one s v w : json_lalr_reads conv s v -> json_lalr_reads conv s w -> v = w.
  Proof.
    intros (ts & H & Hv) (us & H' & Hw). rewrite (jlex_fun s ts H us H') in Hv. now apply (proj1 sentences_one us v Hv us w [] [] Hw).
  Qed.
End Values.
