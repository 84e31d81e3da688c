(** * AutoLex: chomp's tokens of a text are the tokens the text is written from. *)
From Coq Require Import String.
From Verif Require Export AutoAgree.
From Coq Require Import List Lia Bool.
Open Scope list_scope.

(** ** Characters *)
Ltac nb := repeat match goal with
  | |- context [N.leb ?a ?b] => destruct (N.leb_spec a b)
  | |- context [N.ltb ?a ?b] => destruct (N.ltb_spec a b)
  | |- context [N.eqb ?a ?b] => destruct (N.eqb_spec a b)
  end.
Lemma white_space c : white c -> is_space c = true.
Proof. intros H. cbn in H. repeat (destruct H as [<- | H]; [reflexivity |]). destruct H. Qed.
Lemma letter_start c : letter c -> ident_start c = true.
Proof. unfold letter, ident_start, is_lower, is_upper, in_range. change (chr "a") with 97%N. change (chr "z") with 122%N. change (chr "A") with 65%N. change (chr "Z") with 90%N. intros H. nb; cbn; try reflexivity; lia. Qed.
Lemma word_rest c : word_char c <-> ident_rest c = true.
Proof.
  unfold word_char, letter, ident_rest, ident_start, is_num, is_lower, is_upper, in_range. change (chr "a") with 97%N. change (chr "z") with 122%N. change (chr "A") with 65%N. change (chr "Z") with 90%N.
  change (chr "_") with 95%N. change (chr "0") with 48%N. change (chr "9") with 57%N. split; [intros H | intros H; revert H]; nb; cbn; intros; try reflexivity; try discriminate; lia.
Qed.
Lemma start_range c : ident_start c = true -> letter c \/ c = 95%N.
Proof.
  unfold letter, ident_start, is_lower, is_upper, in_range. change (chr "a") with 97%N. change (chr "z") with 122%N. change (chr "A") with 65%N. change (chr "Z") with 90%N. change (chr "_") with 95%N. nb; cbn; intros; try discriminate; lia.
Qed.
Lemma split_word w s : Forall word_char w -> head_is ident_rest s = false -> split_while ident_rest (w ++ s) = (w, s).
Proof.
  intros H Hs. induction H as [| c w Hc _ IH]; cbn [app split_while].
  - destruct s as [| c s]; [reflexivity |]. cbn in Hs. cbn [split_while]. now rewrite Hs.
  - apply word_rest in Hc. now rewrite Hc, IH.
Qed.

(** ** String literals *)
Definition scalarb (n : N) : bool := is_scalar n.
Lemma scalarb_iff n : is_scalar n = true <-> scalar n.
Proof. unfold is_scalar, scalar. split; [intros H; revert H | intros H]; nb; cbn; intros; try reflexivity; try discriminate; lia. Qed.
Lemma hex_value_digit c : hex_digit c -> hex_value c = Some (digit_value c).
Proof.
  unfold hex_digit, hex_value, digit_value, is_num, in_range. change (chr "0") with 48%N. change (chr "9") with 57%N. change (chr "a") with 97%N. change (chr "f") with 102%N. change (chr "A") with 65%N. change (chr "F") with 70%N.
  intros H. nb; cbn [andb]; try (f_equal; lia); lia.
Qed.
Lemma unicode_digits ds : forall len acc s, Forall hex_digit ds -> len + length ds <= 6 -> len + length ds <> 0 ->
  unicode_escape len acc (ds ++ 125%N :: s) = let n := fold_left (fun n c => 16 * n + digit_value c)%N ds acc in if is_scalar n then Some (n, s) else None.
Proof.
  induction ds as [| d ds IH]; intros len acc s H Hl Hn; cbn [app unicode_escape fold_left length] in *.
  - change (125 =? chr "}")%N with true. cbn iota. destruct len; [lia | reflexivity].
  - apply Forall_cons_iff in H as [Hd H]. replace (d =? chr "}")%N with false by (change (chr "}") with 125%N; unfold hex_digit in Hd; nb; [lia | reflexivity]).
    rewrite (hex_value_digit d Hd). destruct (Nat.ltb_spec len 6); [| lia]. apply IH; [exact H | lia | lia].
Qed.
Lemma lex_char c w s n : char_text c w -> string_lit (S n) (w ++ s) = if is_scalar c then option_map (fun '(v, r) => (c :: v, r)) (string_lit n s) else None.
Proof.
  intros H. destruct H as [c Hc H34 H92 | e c H | o h Ho Hh | ds Hn Hl Hd].
  - cbn [app string_lit]. change (chr "\") with 92%N. replace (is_scalar c) with true by (symmetry; apply scalarb_iff; left; lia). nb; try lia; try reflexivity; congruence.
  - replace (is_scalar c) with true; [| symmetry; cbn in H; repeat (destruct H as [[= <- <-] | H]; [reflexivity |]); destruct H].
    cbn in H. repeat (destruct H as [[= <- <-] | H]; [reflexivity |]). destruct H.
  - cbn [app string_lit]. change (92 =? 34)%N with false. change (92 =? chr "\")%N with true. cbn iota. unfold escape. change (120 =? chr "n")%N with false. change (120 =? chr "r")%N with false. change (120 =? chr "t")%N with false.
    change (120 =? chr "0")%N with false. change ((120 =? chr "\")%N || (120 =? 34)%N || (120 =? 39)%N) with false. change (120 =? chr "x")%N with true. cbn iota.
    assert (Ho' : hex_digit o) by (unfold hex_digit; lia). rewrite (hex_value_digit o Ho'), (hex_value_digit h Hh).
    assert (Vo : digit_value o = (o - 48)%N) by (unfold digit_value; nb; lia). assert (Vh : (digit_value h < 16)%N) by (unfold digit_value, hex_digit in *; nb; lia).
    assert (En : hex_number [o; h] = (16 * digit_value o + digit_value h)%N) by (unfold hex_number; cbn [fold_left]; lia).
    replace (is_scalar (hex_number [o; h])) with true by (symmetry; apply scalarb_iff; left; lia). rewrite En. destruct (N.ltb_spec (digit_value o) 8); [reflexivity | lia].
  - cbn [app string_lit]. change (92 =? 34)%N with false. change (92 =? chr "\")%N with true. cbn iota. unfold escape. change (117 =? chr "n")%N with false. change (117 =? chr "r")%N with false. change (117 =? chr "t")%N with false.
    change (117 =? chr "0")%N with false. change ((117 =? chr "\")%N || (117 =? 34)%N || (117 =? 39)%N) with false. change (117 =? chr "x")%N with false. change (117 =? chr "u")%N with true. change (123 =? chr "{")%N with true. cbn iota.
    rewrite <- app_assoc. cbn [app]. rewrite (unicode_digits ds 0 0 s Hd); [| lia | destruct ds; [now elim Hn | discriminate]]. change (fold_left (fun n c => 16 * n + digit_value c)%N ds 0%N) with (hex_number ds). cbn zeta.
    destruct (is_scalar (hex_number ds)); reflexivity.
Qed.
Lemma lex_chars v w : chars_text v w -> forall s n, length w < n -> string_lit n (w ++ 34%N :: s) = if forallb is_scalar v then Some (v, s) else None.
Proof.
  intros H. induction H as [| c u v w Hc _ IH]; intros s n Hn; cbn [forallb].
  - destruct n as [| n]; [lia |]. reflexivity.
  - rewrite <- app_assoc. destruct n as [| n]; [lia |]. rewrite (lex_char c u _ n Hc). destruct (is_scalar c); [| reflexivity]. cbn [andb].
    rewrite IH; [destruct (forallb is_scalar v); reflexivity |]. rewrite app_length in Hn. assert (u <> []) by (destruct Hc; discriminate). destruct u; [congruence | cbn in Hn; lia].
Qed.

(** ** Tokens up to spans *)
Inductive same_token : token -> token -> Prop :=
| same_tident i sp : same_token (TkIdent i) (TkIdent (Ident (id_raw i) (id_sym i) sp))
| same_tstr v sp sp' : same_token (TkStr v sp) (TkStr v sp')
| same_tpunct c sp sp' : same_token (TkPunct c sp) (TkPunct c sp')
| same_tgroup sp sp' ts ts' : Forall2 same_token ts ts' -> same_token (TkGroup sp ts) (TkGroup sp' ts').

(** The tokens programs are written from. *)
Definition slash (t : token) : Prop := match t with TkPunct c _ => c = 47%N | _ => False end.
Definition marks : rstr := lit "!.:|/=;".
Inductive good : token -> Prop :=
| good_ident i : id_raw i = false -> word (id_sym i) \/ id_sym i = lit "_" -> good (TkIdent i)
| good_str v sp : good (TkStr v sp)
| good_punct c sp : In c marks -> good (TkPunct c sp)
| good_group sp ts : goods ts -> good (TkGroup sp ts)
with goods : list token -> Prop :=
| goods_one t : good t -> goods [t]
| goods_more t t' ts : good t -> (slash t -> ~ slash t') -> goods (t' :: ts) -> goods (t :: t' :: ts).
Fixpoint cleanb (t : token) : bool :=
  match t with
  | TkStr v _ => forallb is_scalar v
  | TkGroup _ ts => forallb cleanb ts
  | _ => true
  end.

(** What may follow a token directly. *)
Definition follows (t : token) (s : rstr) : Prop :=
  match t with
  | TkIdent _ => head_is ident_rest s = false /\ head_is (fun d => N.eqb d 34 || N.eqb d 39 || N.eqb d 35)%bool s = false
  | TkStr _ _ => head_is ident_start s = false
  | TkPunct c _ => c = 47%N -> head_is (fun d => N.eqb d (chr "/") || N.eqb d (chr "*"))%bool s = false
  | _ => True
  end.
Definition neutral (c : char) : Prop := ident_rest c = false /\ c <> 34%N /\ c <> 39%N /\ c <> 35%N /\ c <> 47%N /\ c <> 42%N.
Lemma neutral_follows t c s : neutral c -> follows t (c :: s).
Proof.
  intros (H1 & H2 & H3 & H4 & H5 & H6). unfold ident_rest in H1. apply orb_false_iff in H1 as [H1 H1']. destruct t; cbn [follows head_is]; auto.
  - unfold ident_rest. rewrite H1, H1'. split; [reflexivity |]. nb; try congruence; reflexivity.
  - intros _. change (chr "/") with 47%N. change (chr "*") with 42%N. nb; try congruence; reflexivity.
Qed.
Lemma white_neutral c : white c -> neutral c.
Proof. intros H. cbn in H. repeat (destruct H as [<- | H]; [vm_compute; repeat split; discriminate |]). destruct H. Qed.
Lemma paren_neutral : neutral 41%N.
Proof. vm_compute. repeat split; discriminate. Qed.
Definition nothing_follows t : follows t [].
Proof. destruct t; cbn; auto. Qed.

Lemma text_head t w : good t -> token_text t w -> exists c w', w = c :: w' /\
  match t with
  | TkIdent _ => letter c \/ c = 95%N
  | TkStr _ _ => c = 34%N
  | TkPunct d _ => c = d /\ In c marks
  | _ => c = 40%N
  end.
Proof.
  intros G H. destruct H as [i Hr | v sp w H | c sp | sp ts g w g' _ _ _].
  - inversion G as [? _ [(c & cs & E & Hc & _) | E] | | |]; subst; rewrite E; eexists; eexists; (split; [reflexivity |]); auto.
  - do 2 eexists. split; reflexivity.
  - inversion G; subst. do 2 eexists. split; [reflexivity |]. auto.
  - do 2 eexists. split; reflexivity.
Qed.
Lemma apart_follows t t' g w s : good t -> good t' -> token_text t' w -> apart t t' g -> (slash t -> ~ slash t') -> follows t (g ++ w ++ s).
Proof.
  intros Gt G Hw [Hg Hne] Hs. destruct g as [| c g]; [| apply Forall_cons_iff in Hg as [Hc _]; cbn [app]; now apply neutral_follows, white_neutral].
  destruct (text_head t' w G Hw) as (c & w' & -> & Hc). cbn [app]. destruct t as [i | v sp | d sp | sp ts | sp]; cbn [follows].
  - destruct t' as [? | ? ? | d sp' | ? ? | ?]; try (exfalso; now apply Hne). destruct Hc as [-> Hc]. cbn in Hc.
    repeat (destruct Hc as [<- | Hc]; [first [split; reflexivity | exfalso; now apply Hne] |]). destruct Hc.
  - destruct t' as [? | ? ? | d sp' | ? ? | ?]; try (exfalso; now apply Hne). destruct Hc as [-> Hc]. cbn in Hc.
    repeat (destruct Hc as [<- | Hc]; [first [reflexivity | exfalso; now apply Hne] |]). destruct Hc.
  - intros ->. specialize (Hs eq_refl). cbn [head_is]. change (chr "/") with 47%N. change (chr "*") with 42%N.
    destruct t' as [? | ? ? | e sp' | ? ? | ?]; cbn [slash] in Hs.
    + unfold letter in Hc. nb; try reflexivity; lia.
    + subst c. reflexivity.
    + destruct Hc as [-> Hc]. cbn in Hc. repeat (destruct Hc as [<- | Hc]; [first [reflexivity | now elim Hs] |]). destruct Hc.
    + subst c. reflexivity.
    + subst c. reflexivity.
  - exact Logic.I.
  - exact Logic.I.
Qed.

(** ** Lexing *)
Lemma lex_gap g : gap g -> forall fuel closing s, length g <= fuel -> lex fuel closing (g ++ s) = lex (fuel - length g) closing s.
Proof.
  intros H. induction H as [| c g Hc _ IH]; intros fuel closing s Hf; cbn [app length] in *.
  - now rewrite Nat.sub_0_r.
  - destruct fuel as [| fuel]; [lia |]. cbn [lex]. rewrite (white_space c Hc). rewrite IH by lia. reflexivity.
Qed.
Definition pre (l : list token) (r : option (list token * rstr)) : option (list token * rstr) := option_map (fun '(l', r') => (l ++ l', r')) r.
Lemma pre_pre l m r : pre l (pre m r) = pre (l ++ m) r.
Proof. destruct r as [[x y] |]; cbn; [now rewrite app_assoc | reflexivity]. Qed.
Lemma pre_cons t r : option_map (fun '(l, r) => (t :: l, r)) r = pre [t] r.
Proof. reflexivity. Qed.
Lemma mark_lex c sp fuel closing s : In c marks -> follows (TkPunct c sp) s -> lex (S fuel) closing (c :: s) = pre [TkPunct c (N.of_nat (S fuel))] (lex fuel closing s).
Proof.
  intros H F. cbn [lex]. assert (is_space c = false /\ (c =? chr ")")%N = false /\ (c =? chr "(")%N = false /\ (c =? 34)%N = false /\ ident_start c = false /\ is_op c = true) as (-> & -> & -> & -> & -> & ->).
  { cbn in H. repeat (destruct H as [<- | H]; [repeat split; reflexivity |]). destruct H. }
  cbn [follows] in F. destruct (N.eqb_spec c (chr "/")) as [E | E]; cbn [andb]; [| reflexivity]. now rewrite (F E).
Qed.
Lemma start_lex c a fuel closing s : ident_start c = true -> Forall word_char a -> follows (TkIdent (Ident false (c :: a) 0%N)) s ->
  lex (S fuel) closing (c :: a ++ s) = pre [TkIdent (Ident false (c :: a) (N.of_nat (S fuel)))] (lex fuel closing s).
Proof.
  intros H Ha [F1 F2]. pose proof (start_range c H) as R. unfold letter in R. cbn [lex]. replace (is_space c) with false by (unfold is_space; nb; cbn; try reflexivity; lia).
  change (chr ")") with 41%N. change (chr "(") with 40%N. destruct (N.eqb_spec c 41); [lia |]. destruct (N.eqb_spec c 40); [lia |]. destruct (N.eqb_spec c 34); [lia |]. rewrite H, (split_word a s Ha F1), F2. reflexivity.
Qed.
Scheme token_text_ind2 := Induction for token_text Sort Prop
  with tokens_text_ind2 := Induction for tokens_text Sort Prop.
Combined Scheme token_texts_ind from token_text_ind2, tokens_text_ind2.
Lemma lex_all :
  (forall t w, token_text t w -> good t -> forall fuel closing s, length (w ++ s) < fuel -> follows t s ->
    exists t' fuel', same_token t t' /\ length s < fuel' /\ lex fuel closing (w ++ s) = if cleanb t then pre [t'] (lex fuel' closing s) else None) /\
  (forall ts w, tokens_text ts w -> goods ts -> forall fuel closing s, length (w ++ s) < fuel -> follows (last ts nothing) s ->
    exists ts' fuel', Forall2 same_token ts ts' /\ length s < fuel' /\ lex fuel closing (w ++ s) = if forallb cleanb ts then pre ts' (lex fuel' closing s) else None).
Proof.
  apply token_texts_ind.
  - intros i Hr G fuel closing s Hf F. destruct fuel as [| fuel]; [lia |]. exists (TkIdent (Ident (id_raw i) (id_sym i) (N.of_nat (S fuel)))), fuel. split; [constructor |]. rewrite Hr. rewrite app_length in Hf. cbn [cleanb].
    inversion G as [? _ Hs | | |]; subst. assert (exists c a, id_sym i = c :: a /\ ident_start c = true /\ Forall word_char a) as (c & a & E & Hc & Ha).
    { destruct Hs as [(c & a & E & Hc & Ha) | E]; [exists c, a; split; [exact E |]; split; [now apply letter_start | exact Ha] |]. exists 95%N, []. split; [exact E |]. split; [reflexivity | constructor]. }
    rewrite E in *. cbn [length] in Hf. split; [lia |]. now apply start_lex.
  - intros v sp w Hw G fuel closing s Hf F. destruct fuel as [| fuel]; [lia |]. exists (TkStr v (N.of_nat (S fuel))), fuel. split; [constructor |]. rewrite !app_length in Hf. cbn [length] in Hf. split; [lia |].
    cbn [cleanb]. replace (([34%N] ++ w ++ [34%N]) ++ s) with (34%N :: w ++ 34%N :: s) by (cbn [app]; now rewrite <- app_assoc).
    cbn [lex]. change (is_space 34) with false. change (34 =? chr ")")%N with false. change (34 =? chr "(")%N with false. change (34 =? 34)%N with true. cbn iota. rewrite (lex_chars v w Hw s).
    + destruct (forallb is_scalar v); [| reflexivity]. cbn [follows] in F. now rewrite F.
    + cbn [length]. rewrite app_length. lia.
  - intros c sp G fuel closing s Hf F. destruct fuel as [| fuel]; [lia |]. exists (TkPunct c (N.of_nat (S fuel))), fuel. split; [constructor |]. cbn [app length] in Hf. split; [lia |]. inversion G; subst. cbn [app cleanb]. now apply (mark_lex c sp).
  - intros sp ts g w g' Hg Hw IH Hg' G fuel closing s Hf F. destruct fuel as [| fuel]; [lia |]. inversion G as [| | | ? ? Gs]; subst. change (lit "(") with [40%N] in *. change (lit ")") with [41%N] in *. rewrite !app_length in Hf. cbn [length] in Hf.
    replace (([40%N] ++ g ++ w ++ g' ++ [41%N]) ++ s) with (40%N :: g ++ w ++ g' ++ 41%N :: s) by (cbn [app]; now rewrite <- !app_assoc).
    destruct (IH Gs (fuel - length g) true (g' ++ 41%N :: s)) as (ts' & fuel' & H1 & H2 & H3).
    { rewrite !app_length. cbn [length]. lia. }
    { destruct Hg' as [| c g' Hc _]; cbn [app]; apply neutral_follows; [apply paren_neutral | now apply white_neutral]. }
    exists (TkGroup (N.of_nat (S fuel)) ts'), fuel. split; [now constructor |]. split; [lia |]. cbn [cleanb].
    cbn [lex]. change (is_space 40) with false. change (40 =? chr ")")%N with false. change (40 =? chr "(")%N with true. cbn iota. rewrite (lex_gap g Hg) by lia. rewrite H3. destruct (forallb cleanb ts); [| reflexivity].
    rewrite app_length in H2. cbn [length] in H2. rewrite (lex_gap g' Hg') by lia. destruct (fuel' - length g') as [| f] eqn:E; [lia |]. cbn [lex]. change (is_space 41) with false. change (41 =? chr ")")%N with true. cbn iota. cbn [pre option_map]. rewrite app_nil_r. reflexivity.
  - intros t w _ IH G fuel closing s Hf F. inversion G; subst. destruct (IH ltac:(assumption) fuel closing s Hf F) as (t' & fuel' & H1 & H2 & H3). exists [t'], fuel'. split; [auto |]. split; [exact H2 |]. cbn [forallb]. now rewrite andb_true_r.
  - intros t u g t' ts w Hu IH1 Ha Hw IH2 G fuel closing s Hf F. inversion G as [| ? ? ? Gt Hs Gs]; subst. rewrite <- !app_assoc in *.
    assert (Gt' : good t') by (inversion Gs; assumption).
    assert (Ft : follows t (g ++ w ++ s)).
    { inversion Hw as [? w' Hw' E1 E2 | ? u' g' ? ? w' Hu' Ha' Hr' E1 E2]; subst; [now apply (apart_follows t t') |]. rewrite <- app_assoc. now apply (apart_follows t t'). }
    destruct (IH1 Gt fuel closing (g ++ w ++ s) Hf Ft) as (x & f1 & H1 & H2 & H3).
    rewrite app_length in H2. destruct (IH2 Gs (f1 - length g) closing s) as (xs & f2 & H4 & H5 & H6); [lia | now rewrite last_cons in F |].
    exists (x :: xs), f2. split; [now constructor |]. split; [exact H5 |]. rewrite H3. change (forallb cleanb (t :: t' :: ts)) with (cleanb t && forallb cleanb (t' :: ts)). destruct (cleanb t); [| reflexivity]. cbn [andb]. destruct Ha as [Hg _]. rewrite (lex_gap g Hg) by lia. rewrite H6.
    destruct (forallb cleanb (t' :: ts)); [| reflexivity]. apply (pre_pre [x] xs).
Qed.
