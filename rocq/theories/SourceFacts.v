(** * SourceFacts: the lexer of Source reads what SpecSource says. *)
From Coq Require Import String.
From Verif Require Export SpecSource AutoLex.
From Coq Require Import List Lia.
Import ListNotations.
Open Scope list_scope.

Lemma space_iff c : is_space c = true <-> space c.
Proof.
  unfold is_space, space. cbn [In existsb]. destruct (N.leb_spec c 127); rewrite !Bool.orb_true_iff, Bool.andb_true_iff, !N.eqb_eq, !N.leb_le; [lia |].
  split; intros K; intuition (try discriminate; lia).
Qed.
Lemma first_iff c : ident_start c = true <-> first_char c.
Proof. split; [apply start_range |]. intros [H | ->]; [now apply letter_start | reflexivity]. Qed.
Lemma op_iff c : is_op c = true <-> In c (lit "~!@#$%^&*-=+|;:,<.>/?").
Proof. unfold is_op. rewrite existsb_exists. split; [intros (x & Hx & E); apply N.eqb_eq in E; now subst | intros H; exists c; split; [exact H | apply N.eqb_refl]]. Qed.
Lemma no_next_iff (p : char -> bool) (P : char -> Prop) s : (forall c, p c = true <-> P c) -> (head_is p s = false <-> no_next P s).
Proof.
  intros H. unfold no_next. destruct s as [| c s]; cbn [head_is].
  - split; [intros _ c s E; discriminate | reflexivity].
  - split.
    + intros E d s' [= <- <-] Hc. apply H in Hc. congruence.
    + intros G. destruct (p c) eqn:E; [| reflexivity]. apply H in E. now elim (G c s eq_refl).
Qed.
Lemma hex_value_iff c d : hex_value c = Some d <-> hex_digit c /\ d = digit_value c.
Proof.
  split.
  - unfold hex_value, hex_digit, digit_value, is_num, in_range. change (chr "0") with 48%N. change (chr "9") with 57%N. change (chr "a") with 97%N. change (chr "f") with 102%N. change (chr "A") with 65%N. change (chr "F") with 70%N.
    nb; cbn [andb]; intros E; try discriminate E; injection E as <-; lia.
  - intros [H ->]. now apply hex_value_digit.
Qed.
Lemma unicode_sound s : forall len acc n r, unicode_escape len acc s = Some (n, r) -> exists ds, s = ds ++ 125%N :: r /\ Forall hex_digit ds /\ len + length ds <= 6 /\ len + length ds <> 0
   /\ n = fold_left (fun n c => 16 * n + digit_value c)%N ds acc /\ scalar n \/ (6 < len).
Proof.
  induction s as [| c s IH]; intros len acc n r; cbn [unicode_escape]; [discriminate |]. change (chr "}") with 125%N.
  destruct (N.eqb_spec c 125) as [-> |].
  - destruct len; [discriminate |]. destruct (is_scalar acc) eqn:E; [| discriminate]. intros [= -> ->]. destruct (Nat.le_gt_cases (S len) 6); [| exists []; right; lia]. exists []. left. apply scalarb_iff in E. cbn. repeat split; auto; lia.
  - destruct (hex_value c) as [d |] eqn:Ed; [| discriminate]. apply hex_value_iff in Ed as [Hc ->]. destruct (Nat.ltb_spec len 6); [| discriminate]. intros E. apply IH in E as (ds & [(-> & Hd & Hl & Hn & -> & Hs) | K]); [| lia].
    exists (c :: ds). left. cbn [length fold_left app]. repeat split; auto; lia.
Qed.
Lemma escape_sound c s n r : escape c s = Some (n, r) -> exists w, c :: s = w ++ r /\ char_text n (92%N :: w) /\ scalar n.
Proof.
  unfold escape. change (chr "n") with 110%N. change (chr "r") with 114%N. change (chr "t") with 116%N. change (chr "0") with 48%N. change (chr "\") with 92%N. change (chr "x") with 120%N. change (chr "u") with 117%N.
  assert (Esc : forall c n, In (c, n) [(34, 34); (39, 39); (110, 10); (114, 13); (116, 9); (92, 92); (48, 0)]%N -> exists w, c :: s = w ++ s /\ char_text n (92%N :: w) /\ scalar n).
  { intros c' n' H. exists [c']. split; [reflexivity |]. split; [now apply text_escape |]. left. cbn in H. repeat (destruct H as [H | H]; [injection H as <- <-; lia |]). destruct H. }
  destruct (N.eqb_spec c 110) as [-> |]; [intros [= <- <-]; apply Esc; cbn; tauto |]. destruct (N.eqb_spec c 114) as [-> |]; [intros [= <- <-]; apply Esc; cbn; tauto |].
  destruct (N.eqb_spec c 116) as [-> |]; [intros [= <- <-]; apply Esc; cbn; tauto |]. destruct (N.eqb_spec c 48) as [-> |]; [intros [= <- <-]; apply Esc; cbn; tauto |].
  destruct (N.eqb_spec c 92) as [-> |]; [intros [= <- <-]; apply Esc; cbn; tauto |]. destruct (N.eqb_spec c 34) as [-> |]; [intros [= <- <-]; apply Esc; cbn; tauto |].
  destruct (N.eqb_spec c 39) as [-> |]; [intros [= <- <-]; apply Esc; cbn; tauto |]. cbn [orb].
  destruct (N.eqb_spec c 120) as [-> |].
  - destruct s as [| a [| b s]]; try discriminate. destruct (hex_value a) as [x |] eqn:Ea; [| discriminate]. destruct (hex_value b) as [y |] eqn:Eb; [| discriminate]. apply hex_value_iff in Ea as [Ha ->]. apply hex_value_iff in Eb as [Hb ->].
    destruct (N.ltb_spec (digit_value a) 8) as [H8 |]; [| discriminate]. intros E. assert (n = (16 * digit_value a + digit_value b)%N /\ r = s) as [-> ->] by (split; congruence). exists [120%N; a; b]. split; [reflexivity |].
    assert (Ho : (48 <= a <= 55)%N). { unfold digit_value in H8. unfold hex_digit in Ha. destruct (N.leb_spec a 57); [lia |]. destruct (N.leb_spec a 70); lia. }
    split.
    + replace (16 * digit_value a + digit_value b)%N with (hex_number [a; b]); [now apply text_byte |]. unfold hex_number. cbn [fold_left]. lia.
    + left. assert (digit_value b < 16)%N; [| lia]. unfold hex_digit, digit_value in *. destruct (N.leb_spec b 57); [lia |]. destruct (N.leb_spec b 70); lia.
  - destruct (N.eqb_spec c 117) as [-> |]; [| discriminate]. destruct s as [| b s]; [discriminate |]. change (chr "{") with 123%N. destruct (N.eqb_spec b 123) as [-> |]; [| discriminate].
    intros E. apply unicode_sound in E as (ds & [(-> & Hd & Hl & Hn & -> & Hs) | K]); [| lia]. exists ([117%N; 123%N] ++ ds ++ [125%N]). split; [cbn; now rewrite <- app_assoc |]. split; [| exact Hs].
    apply (text_unicode ds); [destruct ds; [cbn in Hn; lia | discriminate] | cbn in Hl; lia | exact Hd].
Qed.
Lemma string_sound n : forall s v r, string_lit n s = Some (v, r) -> exists w, s = w ++ lit """" ++ r /\ quoted_chars v w.
Proof.
  induction n as [| n IH]; intros s v r; cbn [string_lit]; [discriminate |]. destruct s as [| c s]; [discriminate |]. change (lit """") with [34%N].
  destruct (N.eqb_spec c 34) as [-> | H34]; [intros [= <- <-]; exists []; split; [reflexivity | constructor] |].
  change (chr "\") with 92%N. destruct (N.eqb_spec c 92) as [-> | H92].
  - destruct s as [| d s]; [discriminate |]. destruct (escape d s) as [[x rest] |] eqn:Ee; [| discriminate]. apply escape_sound in Ee as (w & E & Hw & Hs).
    destruct (string_lit n rest) as [[v' r'] |] eqn:El; [| discriminate]. intros [= <- <-]. apply IH in El as (w' & -> & Hq). exists ((92%N :: w) ++ w'). rewrite E. split; [cbn; now rewrite <- app_assoc |].
    constructor; [now constructor | exact Hq].
  - destruct (N.eqb_spec c 13) as [-> | H13]; [discriminate |]. destruct (string_lit n s) as [[v' r'] |] eqn:El; [| discriminate]. intros [= <- <-]. apply IH in El as (w' & -> & Hq). exists ([c] ++ w'). split; [reflexivity |].
    constructor; [now constructor | exact Hq].
Qed.
Lemma split_sound s a r : split_while ident_rest s = (a, r) -> s = a ++ r /\ Forall word_char a /\ head_is ident_rest r = false.
Proof.
  revert a r. induction s as [| c s IH]; intros a r; cbn [split_while]; [intros [= <- <-]; repeat split; constructor |]. destruct (ident_rest c) eqn:E.
  - destruct (split_while ident_rest s) as [a' b']. intros [= <- <-]. destruct (IH a' b' eq_refl) as (-> & H1 & H2). repeat split; [| exact H2]. constructor; [now apply word_rest | exact H1].
  - intros [= <- <-]. repeat split; [constructor | exact E].
Qed.
Lemma quote_iff d : (N.eqb d 34 || N.eqb d 39 || N.eqb d 35)%bool = true <-> In d (lit """'#").
Proof. rewrite !Bool.orb_true_iff, !N.eqb_eq. change (lit """'#") with [34%N; 39%N; 35%N]. cbn [In]. intuition. Qed.
Lemma ident_next s : head_is ident_rest s = false /\ head_is (fun d => N.eqb d 34 || N.eqb d 39 || N.eqb d 35)%bool s = false <-> no_next (fun d => word_char d \/ In d (lit """'#")) s.
Proof.
  rewrite (no_next_iff _ word_char) by (intros c; symmetry; apply word_rest). rewrite (no_next_iff _ (fun d => In d (lit """'#"))) by apply quote_iff.
  unfold no_next. split; [intros [H1 H2] c s' E [H | H]; [now apply (H1 c s') | now apply (H2 c s')] | intros H; split; intros c s' E H'; apply (H c s' E); tauto].
Qed.
Lemma slash_next s : head_is (fun d => N.eqb d (chr "/") || N.eqb d (chr "*"))%bool s = false <-> no_next (fun d => In d (lit "/*")) s.
Proof. apply no_next_iff. intros d. rewrite Bool.orb_true_iff, !N.eqb_eq. change (lit "/*") with [47%N; 42%N]. change (chr "/") with 47%N. change (chr "*") with 42%N. cbn [In]. intuition. Qed.
Definition ends_at (closing : bool) (s rest : rstr) (ts : list token) : Prop :=
  if closing then exists w, s = w ++ lit ")" ++ rest /\ source ts w (lit ")" ++ rest) else rest = [] /\ source ts s [].
Lemma ends_after closing (f : rstr -> rstr) (g : list token -> list token) s rest ts :
  (forall w after, s = w ++ after \/ (s = w /\ after = []) -> source ts w after -> exists w', f (w ++ after) = w' ++ after /\ source (g ts) w' after) ->
  ends_at closing s rest ts -> ends_at closing (f s) rest (g ts).
Proof.
  intros H. unfold ends_at. destruct closing.
  - intros (w & -> & Hw). destruct (H w _ (or_introl eq_refl) Hw) as (w' & E & Hw'). exists w'. auto.
  - intros [-> Hs]. split; [reflexivity |]. destruct (H s [] (or_intror (conj eq_refl eq_refl)) Hs) as (w' & E & Hw'). rewrite !app_nil_r in E. now rewrite E.
Qed.
Lemma lex_sound fuel : forall closing s ts rest, lex fuel closing s = Some (ts, rest) -> ends_at closing s rest ts.
Proof.
  induction fuel as [| n IH]; intros closing s ts rest; cbn [lex]; [discriminate |].
  destruct s as [| c s]; [destruct closing; [discriminate |]; intros [= <- <-]; split; [reflexivity | constructor] |].
  destruct (is_space c) eqn:Es.
  { intros E. apply IH in E. revert E. apply (ends_after closing (cons c) (fun l => l)). intros w after _ Hw. exists (c :: w). split; [reflexivity |]. constructor; [now apply space_iff | exact Hw]. }
  destruct (N.eqb_spec c (chr ")")) as [-> |].
  { destruct closing; [| discriminate]. intros [= <- <-]. exists []. split; [reflexivity | constructor]. }
  destruct (N.eqb_spec c (chr "(")) as [-> |].
  { destruct (lex n true s) as [[ts' r'] |] eqn:E1; [| discriminate]. destruct (lex n closing r') as [[l r''] |] eqn:E2; [| discriminate]. intros [= <- <-]. apply IH in E1 as (w & -> & Hw). apply IH in E2. revert E2.
    apply (ends_after closing (fun r => chr "(" :: w ++ lit ")" ++ r) (cons (TkGroup _ ts'))). intros w2 after Hr Hw2. exists (lit "(" ++ w ++ lit ")" ++ w2). split; [cbn; now rewrite <- !app_assoc |].
    assert (r' = w2 ++ after) as -> by (destruct Hr as [-> | [-> ->]]; [reflexivity | now rewrite app_nil_r]). constructor; assumption. }
  destruct (N.eqb_spec c 34) as [-> |].
  { destruct (string_lit _ s) as [[v r'] |] eqn:E1; [| discriminate]. destruct (head_is ident_start r') eqn:Eh; [discriminate |]. destruct (lex n closing r') as [[l r''] |] eqn:E2; [| discriminate]. intros [= <- <-].
    apply string_sound in E1 as (w & -> & Hw). apply IH in E2. revert E2. apply (ends_after closing (fun r => 34%N :: w ++ lit """" ++ r) (cons (TkStr v _))). intros w2 after Hr Hw2.
    exists (lit """" ++ w ++ lit """" ++ w2). split; [cbn; now rewrite <- !app_assoc |]. assert (r' = w2 ++ after) as -> by (destruct Hr as [-> | [-> ->]]; [reflexivity | now rewrite app_nil_r]).
    constructor; [exact Hw | now apply (no_next_iff _ _ _ first_iff) | exact Hw2]. }
  destruct (ident_start c) eqn:Ei.
  { destruct (split_while ident_rest s) as [a r'] eqn:E1. apply split_sound in E1 as (-> & Ha & Hr). destruct (head_is (fun d => N.eqb d 34 || N.eqb d 39 || N.eqb d 35)%bool r') eqn:Eh; [discriminate |]. destruct (lex n closing r') as [[l r''] |] eqn:E2; [| discriminate]. intros [= <- <-].
    apply IH in E2. revert E2. apply (ends_after closing (fun r => c :: a ++ r) (cons (TkIdent (Ident false (c :: a) _)))). intros w2 after Hr2 Hw2. exists (c :: a ++ w2). split; [cbn; now rewrite <- !app_assoc |].
    assert (r' = w2 ++ after) as -> by (destruct Hr2 as [-> | [-> ->]]; [reflexivity | now rewrite app_nil_r]). constructor; [now apply first_iff | exact Ha | now apply ident_next | exact Hw2]. }
  destruct (_ && _)%bool eqn:Ec; [discriminate |]. destruct (is_op c) eqn:Eo; [| discriminate]. destruct (lex n closing s) as [[l r''] |] eqn:E2; [| discriminate]. intros [= <- <-].
  apply IH in E2. revert E2. apply (ends_after closing (cons c) (cons (TkPunct c _))). intros w2 after Hr2 Hw2. exists (c :: w2). split; [reflexivity |].
  assert (s = w2 ++ after) as -> by (destruct Hr2 as [-> | [-> ->]]; [reflexivity | now rewrite app_nil_r]). constructor; [now apply op_iff | | exact Hw2]. intros ->. rewrite N.eqb_refl in Ec. now apply slash_next.
Qed.

(** ** Completeness *)
Lemma string_complete v w : quoted_chars v w -> forall s n, length w < n -> string_lit n (w ++ 34%N :: s) = Some (v, s).
Proof.
  induction 1 as [| c u v w Hc _ IH]; intros s n Hn.
  - destruct n as [| n]; [lia |]. reflexivity.
  - destruct n as [| n]; [lia |]. rewrite <- app_assoc. destruct Hc as [c H34 H92 H13 | c u Hc Hs].
    + cbn [app string_lit]. change (chr "\") with 92%N. destruct (N.eqb_spec c 34); [congruence |]. destruct (N.eqb_spec c 92); [congruence |]. destruct (N.eqb_spec c 13); [congruence |].
      rewrite IH; [reflexivity | cbn in Hn; lia].
    + rewrite (lex_char c _ _ n Hc). rewrite (proj2 (scalarb_iff c) Hs). rewrite app_length in Hn. cbn [length] in Hn. rewrite IH by lia. reflexivity.
Qed.
Lemma letter_range c : letter c -> (65 <= c <= 122)%N.
Proof. unfold letter. lia. Qed.
Lemma op_not c : In c (lit "~!@#$%^&*-=+|;:,<.>/?") -> is_space c = false /\ N.eqb c (chr ")") = false /\ N.eqb c (chr "(") = false /\ N.eqb c 34 = false /\ ident_start c = false.
Proof. intros H. cbn in H. repeat (destruct H as [<- | H]; [repeat split; reflexivity |]). destruct H. Qed.
Lemma lex_complete ts s after : source ts s after -> forall fuel closing, length (s ++ after) < fuel ->
  exists ts' fuel', Forall2 same_token ts ts' /\ length after < fuel' /\ lex fuel closing (s ++ after) = pre ts' (lex fuel' closing after).
Proof.
  induction 1 as [after | c ts s after Hc _ IH | c a sp ts s after Hc Ha Hn _ IH | v w sp ts s after Hw Hn _ IH | c sp ts s after Hc Hn _ IH | ts1 w sp ts s after H1 IH1 _ IH];
    intros fuel closing Hf.
  - exists [], fuel. split; [constructor |]. split; [exact Hf |]. cbn. destruct (lex fuel closing after) as [[? ?] |]; reflexivity.
  - destruct fuel as [| fuel]; [lia |]. cbn in Hf. destruct (IH fuel closing) as (ts' & f' & H1 & H2 & H3); [lia |]. exists ts', f'. split; [exact H1 |]. split; [exact H2 |]. cbn [app lex]. rewrite (proj2 (space_iff c) Hc). exact H3.
  - destruct fuel as [| fuel]; [lia |]. cbn [app length] in Hf. rewrite <- app_assoc, app_length in Hf. destruct (IH fuel closing) as (ts' & f' & H1 & H2 & H3); [lia |].
    exists (TkIdent (Ident false (c :: a) (N.of_nat (S fuel))) :: ts'), f'. split; [constructor; [apply (same_tident (Ident false (c :: a) sp)) | exact H1] |]. split; [exact H2 |].
    cbn [app]. rewrite <- app_assoc. rewrite start_lex; [| now apply first_iff | exact Ha | now apply ident_next]. rewrite H3. apply (pre_pre [_]).
  - destruct fuel as [| fuel]; [lia |]. change (lit """") with [34%N] in *. rewrite <- !app_assoc, !app_length in Hf. cbn [length] in Hf. destruct (IH fuel closing) as (ts' & f' & H1 & H2 & H3); [rewrite app_length; lia |].
    exists (TkStr v (N.of_nat (S fuel)) :: ts'), f'. split; [constructor; [constructor | exact H1] |]. split; [exact H2 |].
    rewrite <- !app_assoc. cbn [app lex]. change (is_space 34) with false. change (34 =? chr ")")%N with false. change (34 =? chr "(")%N with false. change (34 =? 34)%N with true. cbv iota.
    rewrite (string_complete v w Hw) by (cbn [length]; rewrite app_length; lia). rewrite (proj2 (no_next_iff _ _ _ first_iff) Hn). rewrite H3. apply (pre_pre [_]).
  - destruct fuel as [| fuel]; [lia |]. cbn [app length] in Hf. destruct (IH fuel closing) as (ts' & f' & H1 & H2 & H3); [lia |].
    exists (TkPunct c (N.of_nat (S fuel)) :: ts'), f'. split; [constructor; [constructor | exact H1] |]. split; [exact H2 |]. cbn [app lex]. destruct (op_not c Hc) as (-> & -> & -> & -> & ->).
    replace (_ && head_is _ _)%bool with false.
    + rewrite (proj2 (op_iff c) Hc), H3. apply (pre_pre [_]).
    + destruct (N.eqb_spec c (chr "/")) as [E |]; [| reflexivity]. symmetry. now apply slash_next, Hn.
  - destruct fuel as [| fuel]; [lia |]. change (lit ")") with [41%N] in *. change (lit "(") with [40%N] in *. rewrite !app_length in Hf. cbn [length] in Hf.
    destruct (IH1 fuel true) as (ts1' & f1 & H2 & H3 & H4); [rewrite !app_length; cbn [length]; lia |].
    destruct (IH fuel closing) as (ts' & f' & H5 & H6 & H7); [rewrite app_length; lia |].
    exists (TkGroup (N.of_nat (S fuel)) ts1' :: ts'), f'. split; [constructor; [now constructor | exact H5] |]. split; [exact H6 |].
    rewrite <- !app_assoc. cbn [app lex]. change (is_space 40) with false. change (40 =? chr ")")%N with false. change (40 =? chr "(")%N with true. cbv iota. cbn [app] in H4. rewrite H4.
    destruct f1 as [| f1]; [lia |]. cbn [lex]. change (is_space 41) with false. change (41 =? chr ")")%N with true. cbv iota. cbn [pre option_map]. rewrite app_nil_r. rewrite H7. apply (pre_pre [_]).
Qed.
Theorem text_tokens_sound s ts : text_tokens s = Some ts -> source ts s [].
Proof. unfold text_tokens. destruct (lex _ _ _) as [[l r] |] eqn:E; [| discriminate]. intros [= <-]. apply lex_sound in E as [_ H]. exact H. Qed.
Theorem text_tokens_complete s ts : source ts s [] -> exists ts', text_tokens s = Some ts' /\ Forall2 same_token ts ts'.
Proof.
  intros H. destruct (lex_complete _ _ _ H (S (length s)) false) as (ts' & f & H1 & H2 & H3); [rewrite app_nil_r; lia |]. exists ts'. split; [| exact H1]. unfold text_tokens. rewrite app_nil_r in H3. rewrite H3.
  destruct f as [| f]; [cbn in H2; lia |]. cbn. now rewrite app_nil_r.
Qed.
