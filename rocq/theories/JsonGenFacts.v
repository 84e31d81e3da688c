(** * JsonGenFacts: the values of the generated JSON types. *)
From Coq Require Import String ZArith.
From Verif Require Export JsonGen GenTrees JsonPrint.
From Coq Require Import List Lia.
Open Scope list_scope.

Notation T := json_tab.
(** ** Characters *)
Definition chars_of (id : nat) : list char :=
  match def_of T id with Some (DAlt _ ids _ _ _ _) => match lit_chars T ids with Some cs => cs | None => [] end | _ => [] end.
Ltac solve_class := unfold class; repeat eexists; vm_compute; reflexivity.
Lemma class_ws : class T 5 [32; 9; 10; 13]%N. Proof. solve_class. Qed.
Lemma class_19 : class T 22 (lit "123456789"). Proof. solve_class. Qed.
Lemma class_e : class T 43 (lit "eE"). Proof. solve_class. Qed.
Lemma class_sign : class T 47 (lit "+-"). Proof. solve_class. Qed.
Lemma class_hex : class T 145 (lit "0123456789abcdefABCDEF"). Proof. solve_class. Qed.
Lemma class_ascii : class T 144 [34; 92; 47; 98; 102; 110; 114; 116]%N. Proof. solve_class. Qed.
Definition literals : list char := Eval vm_compute in filter (fun c => negb (N.eqb c 34 || N.eqb c 92)) (map N.of_nat (seq 32 95)).
Lemma class_literal : class T 142 literals. Proof. solve_class. Qed.
Lemma literals_iff c : In c literals <-> printable_ascii c.
Proof.
  unfold literals, printable_ascii, quote, backslash. split.
  - intros H. repeat (destruct H as [<- | H]; [lia |]). destruct H.
  - intros (H & H1 & H2). assert (E : In c (filter (fun c => negb (N.eqb c 34 || N.eqb c 92)) (map N.of_nat (seq 32 95)))); [| exact E]. apply filter_In. split.
    + apply in_map_iff. exists (N.to_nat c). split; [apply N2Nat.id | apply in_seq; lia].
    + apply negb_true_iff, orb_false_iff. split; now apply N.eqb_neq.
Qed.
Lemma hex_iff c : In c (lit "0123456789abcdefABCDEF") <-> hex_digit c.
Proof.
  unfold hex_digit. split.
  - cbn [lit]. intros H. repeat (destruct H as [<- | H]; [cbn; lia |]). destruct H.
  - intros H. assert (E : In c (map N.of_nat (seq 48 10) ++ map N.of_nat (seq 97 6) ++ map N.of_nat (seq 65 6))).
    { rewrite !in_app_iff, !in_map_iff. destruct H as [H | [H | H]]; [left | right; left | right; right]; (exists (N.to_nat c); split; [apply N2Nat.id | apply in_seq; lia]). }
    exact E.
Qed.
Lemma digit_sound t : derives T 25 t -> exists c, yield t = [c] /\ digit c.
Proof.
  intros H. eapply alt2_inv in H as [(t' & -> & H) | (t' & -> & H)]; [| | reflexivity].
  - eapply lit_inv in H as ->; [| reflexivity]. exists 48%N. split; [reflexivity | unfold digit; lia].
  - apply (class_sound _ _ _ _ class_19) in H as (c & E & H & _). exists c. split; [exact E |]. cbn in H. unfold digit. repeat (destruct H as [<- | H]; [lia |]). destruct H.
Qed.
Lemma digit19_complete c : (49 <= c <= 57)%N -> exists t, derives T 22 t /\ yield t = [c].
Proof.
  intros H. destruct (class_complete _ _ _ c class_19) as (t & Ht & E & _); [| eauto].
  assert (E : In c (map N.of_nat (seq 49 9))); [| exact E]. apply in_map_iff. exists (N.to_nat c). split; [apply N2Nat.id | apply in_seq; lia].
Qed.
Lemma digit_complete c : digit c -> exists t, derives T 25 t /\ yield t = [c].
Proof.
  unfold digit. intros H. destruct (N.eq_dec c 48) as [-> | Hn].
  - exists (NAlt 0 (NLit (lit "0"))). split; [| reflexivity]. eapply (derives_alt T 25); [reflexivity | reflexivity | now eapply derives_lit].
  - destruct (digit19_complete c) as (t & Ht & E); [lia |]. exists (NAlt 1 t). split; [| exact E]. now eapply (derives_alt T 25).
Qed.
Lemma ids_digits : star_ids T 23 28 24 27 25 26. Proof. repeat split; repeat eexists; reflexivity. Qed.
Lemma ids_digits1 : plus_ids T 33 37 25 36 34 35. Proof. repeat split; repeat eexists; reflexivity. Qed.
Lemma ids_ws : star_ids T 154 158 155 157 5 156. Proof. repeat split; repeat eexists; reflexivity. Qed.
Lemma ids_chars : star_ids T 63 152 64 151 149 150. Proof. repeat split; repeat eexists; reflexivity. Qed.
Lemma ids_items : list_ids T 171 177 172 176 173 175 74 154 174. Proof. repeat split; repeat eexists; reflexivity. Qed.
Lemma ids_members : list_ids T 160 167 162 166 163 165 74 154 164. Proof. repeat split; repeat eexists; reflexivity. Qed.
Lemma ws_sound t : derives T 154 t -> ws (yield t).
Proof. apply (star_sound T _ _ _ _ _ _ _ t ids_ws). intros y Hy. apply (class_sound _ _ _ _ class_ws) in Hy as (c & E & H & _). eauto. Qed.
Lemma ws_complete w : ws w -> exists t, derives T 154 t /\ yield t = w.
Proof. apply (star_complete T _ _ _ _ _ _ _ w ids_ws). intros c Hc. destruct (class_complete _ _ _ c class_ws Hc) as (t & Ht & E & _). eauto. Qed.

(** ** Numbers *)
Lemma digits_sound t : derives T 23 t -> Forall digit (yield t).
Proof. apply (star_sound T _ _ _ _ _ _ _ t ids_digits digit_sound). Qed.
Lemma digits1_sound t : derives T 33 t -> yield t <> [] /\ Forall digit (yield t).
Proof. apply (plus_sound T _ _ _ _ _ _ _ t ids_digits1 digit_sound). Qed.
Definition int_text (w : rstr) : Prop := w = lit "0" \/ exists c ds, w = c :: ds /\ (49 <= c <= 57)%N /\ Forall digit ds.
Definition frac_text (w : rstr) : Prop := exists ds, w = lit "." ++ ds /\ ds <> [] /\ Forall digit ds.
Definition sign_text (x : rstr) : Prop := x = lit "+" \/ x = lit "-".
Definition exp_text (w : rstr) : Prop := exists e s ds, w = e :: s ++ ds /\ In e (lit "eE") /\ opt sign_text s /\ ds <> [] /\ Forall digit ds.
Lemma int_iff w : int_text w <-> exists t, derives T 30 t /\ yield t = w.
Proof.
  split.
  - intros [-> | (c & ds & -> & Hc & Hd)].
    + exists (NAlt 0 (NLit (lit "0"))). split; [| reflexivity]. eapply (derives_alt T 30); [reflexivity | reflexivity | now eapply derives_lit].
    + destruct (digit19_complete c Hc) as (x & Hx & Ex). destruct (star_complete T _ _ _ _ _ _ _ ds ids_digits digit_complete Hd) as (y & Hy & Ey).
      exists (NAlt 1 (NCat [x; y])). split; [| cbn [yield flat_map]; now rewrite Ex, Ey, app_nil_r].
      eapply (derives_alt T 30); [reflexivity | reflexivity |]. eapply (derives_cat T 29); [reflexivity |]. repeat (constructor; [assumption |]). constructor.
  - intros (t & H & <-). eapply alt2_inv in H as [(t' & -> & H) | (t' & -> & H)]; [| | reflexivity].
    + left. now eapply lit_inv in H as ->; [| reflexivity].
    + right. eapply cat2_inv in H as (x & y & -> & Hx & Hy); [| reflexivity]. apply (class_sound _ _ _ _ class_19) in Hx as (c & Ec & Hc & _). exists c, (yield y).
      cbn [yield flat_map]. rewrite Ec, app_nil_r. split; [reflexivity |]. split; [| now apply digits_sound]. cbn in Hc. repeat (destruct Hc as [<- | Hc]; [lia |]). destruct Hc.
Qed.
Lemma dot_iff w : frac_text w <-> exists t, derives T 38 t /\ yield t = w.
Proof.
  split.
  - intros (ds & -> & Hn & Hd). destruct (plus_complete T _ _ _ _ _ _ _ ds ids_digits1 digit_complete Hn Hd) as (y & Hy & Ey).
    exists (NCat [NLit (lit "."); y]). split; [| cbn [yield flat_map]; now rewrite Ey, app_nil_r]. eapply (derives_cat T 38); [reflexivity |].
    constructor; [now eapply derives_lit |]. constructor; [exact Hy | constructor].
  - intros (t & H & <-). eapply cat2_inv in H as (x & y & -> & Hx & Hy); [| reflexivity]. eapply lit_inv in Hx as ->; [| reflexivity].
    exists (yield y). cbn [yield flat_map]. rewrite app_nil_r. split; [reflexivity | now apply digits1_sound].
Qed.
(** The optional parts occur twice, with the same shape. *)
Definition opt_id (o e v : nat) : Prop := exists p f n a c, def_of T o = Some (DAlt p [e; v] f n a c) /\ def_of T e = Some DEps.
Lemma opt_text o e v (P : rstr -> Prop) w : opt_id o e v -> (forall w, P w <-> exists t, derives T v t /\ yield t = w) -> (opt P w <-> exists t, derives T o t /\ yield t = w).
Proof.
  intros (p & f & n & a & c & Eo & Ee) HP. unfold opt. rewrite HP. split.
  - intros [-> | (t & Ht & <-)]; [exists (NAlt 0 NEps) | exists (NAlt 1 t)]; (split; [apply (opt_iff T _ _ _ _ _ _ _ _ _ Eo Ee); eauto | reflexivity]).
  - intros (t & Ht & <-). apply (opt_iff T _ _ _ _ _ _ _ _ _ Eo Ee) in Ht as [-> | (t' & -> & Ht)]; [now left | right; eauto].
Qed.
Lemma sign_iff w : sign_text w <-> exists t, derives T 47 t /\ yield t = w.
Proof.
  split.
  - intros H. assert (E : exists c, w = [c] /\ In c (lit "+-")) by (destruct H as [-> | ->]; eexists; cbn; auto). destruct E as (c & -> & Hc).
    destruct (class_complete _ _ _ c class_sign Hc) as (t & Ht & E & _). eauto.
  - intros (t & H & <-). apply (class_sound _ _ _ _ class_sign) in H as (c & -> & Hc & _). cbn in Hc. destruct Hc as [<- | [<- | []]]; [left | right]; reflexivity.
Qed.
Lemma exponent_iff o e v n p w : def_of T v = Some (DCat n p [43; o; 33]) -> opt_id o e 47 -> (exp_text w <-> exists t, derives T v t /\ yield t = w).
Proof.
  intros Ev Ho. split.
  - intros (x & s & ds & -> & Hx & Hs & Hn & Hd). destruct (class_complete _ _ _ x class_e Hx) as (t1 & H1 & E1 & _).
    apply (opt_text _ _ _ _ _ Ho sign_iff) in Hs as (t2 & H2 & E2). destruct (plus_complete T _ _ _ _ _ _ _ ds ids_digits1 digit_complete Hn Hd) as (t3 & H3 & E3).
    exists (NCat [t1; t2; t3]). split; [| cbn [yield flat_map]; now rewrite E1, E2, E3, app_nil_r]. eapply derives_cat; [exact Ev |]. repeat (constructor; [assumption |]). constructor.
  - intros (t & H & <-). apply (cat3_inv _ _ _ _ _ _ _ _ Ev) in H as (t1 & t2 & t3 & -> & H1 & H2 & H3). apply (class_sound _ _ _ _ class_e) in H1 as (x & E1 & Hx & _).
    exists x, (yield t2), (yield t3). cbn [yield flat_map]. rewrite E1, app_nil_r. split; [reflexivity |]. split; [exact Hx |]. split; [| now apply digits1_sound].
    apply (opt_text _ _ _ _ _ Ho sign_iff). eauto.
Qed.
Lemma unsigned_iff v n p fo fe eo ee ev so se n' p' w :
  def_of T v = Some (DCat n p [30; fo; eo]) -> opt_id fo fe 38 -> opt_id eo ee ev -> def_of T ev = Some (DCat n' p' [43; so; 33]) -> opt_id so se 47 ->
  ((exists int frac exp, w = int ++ frac ++ exp /\ int_text int /\ opt frac_text frac /\ opt exp_text exp) <-> exists t, derives T v t /\ yield t = w).
Proof.
  intros Ev Hf He Eev Hs. split.
  - intros (i & f & x & -> & Hi & Hfr & Hx). apply int_iff in Hi as (t1 & H1 & <-). apply (opt_text _ _ _ _ _ Hf dot_iff) in Hfr as (t2 & H2 & <-).
    apply (opt_text _ _ _ _ _ He (fun w => exponent_iff _ _ _ _ _ w Eev Hs)) in Hx as (t3 & H3 & <-). exists (NCat [t1; t2; t3]).
    split; [| cbn [yield flat_map]; now rewrite app_nil_r]. eapply derives_cat; [exact Ev |]. repeat (constructor; [assumption |]). constructor.
  - intros (t & H & <-). apply (cat3_inv _ _ _ _ _ _ _ _ Ev) in H as (t1 & t2 & t3 & -> & H1 & H2 & H3). exists (yield t1), (yield t2), (yield t3).
    cbn [yield flat_map]. rewrite app_nil_r. split; [reflexivity |]. split; [apply int_iff; eauto |]. split; [apply (opt_text _ _ _ _ _ Hf dot_iff); eauto |].
    apply (opt_text _ _ _ _ _ He (fun w => exponent_iff _ _ _ _ _ w Eev Hs)). eauto.
Qed.
Ltac solve_opt := repeat eexists; reflexivity.
Definition unsigned_text (w : rstr) : Prop := exists int frac exp, w = int ++ frac ++ exp /\ int_text int /\ opt frac_text frac /\ opt exp_text exp.
Lemma positive_iff w : unsigned_text w <-> exists t, derives T 51 t /\ yield t = w.
Proof. eapply (unsigned_iff 51 _ _ 39 31 50 40 49 48 44); [reflexivity | solve_opt | solve_opt | reflexivity | solve_opt]. Qed.
Lemma negative_iff w : unsigned_text w <-> exists t, derives T 59 t /\ yield t = w.
Proof. eapply (unsigned_iff 59 _ _ 53 52 58 54 57 56 55); [reflexivity | solve_opt | solve_opt | reflexivity | solve_opt]. Qed.
Lemma json_number_iff w : JsonNumber w <-> unsigned_text w \/ exists w', w = lit "-" ++ w' /\ unsigned_text w'.
Proof.
  split.
  - intros [sign int frac exp [-> | <-] Hi Hf He]; [left | right; eexists; split; [reflexivity |]]; exists int, frac, exp; auto.
  - intros [(i & f & x & -> & Hi & Hf & Hx) | (w' & -> & i & f & x & -> & Hi & Hf & Hx)].
    + apply (json_number [] i f x); auto. now left.
    + apply (json_number (lit "-") i f x); auto. now right.
Qed.
Lemma number_iff w : JsonNumber w <-> exists t, derives T 61 t /\ yield t = w.
Proof.
  rewrite json_number_iff. split.
  - intros [H | (w' & -> & H)].
    + apply positive_iff in H as (t & Ht & <-). exists (NAlt 0 t). split; [| reflexivity]. now eapply (derives_alt T 61).
    + apply negative_iff in H as (t & Ht & <-). exists (NAlt 1 (NCat [NLit (lit "-"); t])). split; [| cbn [yield flat_map]; now rewrite app_nil_r].
      eapply (derives_alt T 61); [reflexivity | reflexivity |]. eapply (derives_cat T 60); [reflexivity |]. constructor; [now eapply derives_lit |]. constructor; [exact Ht | constructor].
  - intros (t & H & <-). eapply alt2_inv in H as [(t' & -> & H) | (t' & -> & H)]; [| | reflexivity].
    + left. apply positive_iff. eauto.
    + right. eapply cat2_inv in H as (x & y & -> & Hx & Hy); [| reflexivity]. eapply lit_inv in Hx as ->; [| reflexivity]. exists (yield y).
      cbn [yield flat_map]. rewrite app_nil_r. split; [reflexivity |]. apply negative_iff. eauto.
Qed.

(** ** Strings *)
Lemma hex_digit_of_ok c : hex_digit c -> hex_digit_of c = Some (hex_value c) /\ (hex_value c < 16)%N.
Proof.
  unfold hex_digit, hex_digit_of, hex_value, in_range. intros H.
  destruct (N.leb_spec 48 c), (N.leb_spec c 57), (N.leb_spec 97 c), (N.leb_spec c 102), (N.leb_spec 65 c), (N.leb_spec c 70); cbn [andb]; split; try reflexivity; lia.
Qed.
Lemma from_hex_ok u : hex4 u -> from_hex u = Some (hex_number u) /\ (hex_number u < 65536)%N.
Proof.
  intros [Hl Hu]. destruct u as [| c1 [| c2 [| c3 [| c4 [| ? ?]]]]]; try discriminate. rewrite !Forall_cons_iff in Hu. destruct Hu as (H1 & H2 & H3 & H4 & _).
  apply hex_digit_of_ok in H1 as [E1 B1], H2 as [E2 B2], H3 as [E3 B3], H4 as [E4 B4]. unfold hex_number. cbn [fold_left].
  cbn [from_hex hex_digits]. rewrite E1, E2, E3, E4. split; [| lia].
  rewrite (proj2 (N.ltb_lt _ _)) by lia. rewrite (proj2 (N.ltb_lt _ _)) by lia. rewrite (proj2 (N.ltb_lt _ _)) by lia. rewrite (proj2 (N.ltb_lt _ _)) by lia. reflexivity.
Qed.
Definition lit_tree (l : tree) (c : char) : Prop := derives T 142 l /\ to_char T 142 l = Some c /\ yield l = [c] /\ printable_ascii c.
Definition escape_tree (k : nat) (e c : char) : Prop := derives T 144 (NAlt k (NLit [e])) /\ nth_error ascii_escapes k = Some c /\ escape e c.
Definition unicode_tree (h1 h2 h3 h4 : tree) (u : rstr) : Prop :=
  derives_seq T [145; 145; 145; 145] [h1; h2; h3; h4] /\ hex4 u /\ decode h1 h2 h3 h4 = Some (hex_number u) /\ yield h1 ++ yield h2 ++ yield h3 ++ yield h4 = u.
Inductive char_tree : tree -> Prop :=
| char_literal l c : lit_tree l c -> char_tree (NAlt 0 l)
| char_ascii k e c : escape_tree k e c -> char_tree (NAlt 1 (NCat [NLit [92%N]; NAlt 0 (NAlt k (NLit [e]))]))
| char_unicode h1 h2 h3 h4 u : unicode_tree h1 h2 h3 h4 u -> char_tree (NAlt 1 (NCat [NLit [92%N]; NAlt 1 (NCat [NLit (lit "u"); h1; h2; h3; h4])])).
Lemma escape_nth k e : nth_error [34; 92; 47; 98; 102; 110; 114; 116]%N k = Some e -> exists c, nth_error ascii_escapes k = Some c /\ escape e c.
Proof. do 8 (destruct k as [| k]; [intros [= <-]; eexists; split; [reflexivity | cbn; auto 10] |]). destruct k; discriminate. Qed.
Lemma char_tree_sound t : derives T 149 t -> char_tree t.
Proof.
  intros H. eapply alt2_inv in H as [(l & -> & H) | (x & -> & H)]; [| | reflexivity].
  - pose proof H as H0. apply (class_sound _ _ _ _ class_literal) in H as (c & E & H & Hc). apply (char_literal l c). repeat split; try assumption; now apply literals_iff.
  - eapply cat2_inv in H as (y & z & -> & Hy & H); [| reflexivity]. eapply lit_inv in Hy as ->; [| reflexivity].
    eapply alt2_inv in H as [(a & -> & H) | (a & -> & H)]; [| | reflexivity].
    + pose proof H as H0. apply (class_iff _ _ _ _ class_ascii) in H as (k & e & -> & Hk). destruct (escape_nth k e Hk) as (c & Hc & He). apply (char_ascii k e c). repeat split; assumption.
    + eapply cat_inv in H as (ts & -> & H); [| reflexivity]. apply derives_seq_cons in H as (p & ts1 & -> & Hp & H). eapply lit_inv in Hp as ->; [| reflexivity]. pose proof H as H0.
      apply derives_seq_cons in H as (h1 & ts2 & -> & H1 & H). apply derives_seq_cons in H as (h2 & ts3 & -> & H2 & H). apply derives_seq_cons in H as (h3 & ts4 & -> & H3 & H).
      apply derives_seq_cons in H as (h4 & ts5 & -> & H4 & H). apply derives_seq_nil in H as ->.
      apply (class_sound _ _ _ _ class_hex) in H1 as (c1 & E1 & D1 & C1), H2 as (c2 & E2 & D2 & C2), H3 as (c3 & E3 & D3 & C3), H4 as (c4 & E4 & D4 & C4). apply hex_iff in D1, D2, D3, D4.
      assert (Hu : hex4 [c1; c2; c3; c4]) by (split; [reflexivity | repeat (constructor; [assumption |]); constructor]).
      apply (char_unicode h1 h2 h3 h4 [c1; c2; c3; c4]). split; [exact H0 |]. split; [exact Hu |]. split; [| now rewrite E1, E2, E3, E4].
      unfold decode. rewrite C1, C2, C3, C4. now apply from_hex_ok.
Qed.
Lemma char_tree_derives t : char_tree t -> derives T 149 t.
Proof.
  intros [l c (H & _) | k e c (H & _) | h1 h2 h3 h4 u (H & _)].
  - now eapply (derives_alt T 149).
  - eapply (derives_alt T 149); [reflexivity | reflexivity |]. eapply (derives_cat T 148); [reflexivity |]. constructor; [now eapply derives_lit |]. constructor; [| constructor]. now eapply (derives_alt T 147).
  - eapply (derives_alt T 149); [reflexivity | reflexivity |]. eapply (derives_cat T 148); [reflexivity |]. constructor; [now eapply derives_lit |]. constructor; [| constructor].
    eapply (derives_alt T 147); [reflexivity | reflexivity |]. eapply (derives_cat T 146); [reflexivity |]. constructor; [now eapply derives_lit | exact H].
Qed.
Lemma lit_exists c : printable_ascii c -> exists l, lit_tree l c.
Proof. intros H. destruct (class_complete _ _ _ c class_literal) as (t & Ht & E & Hc); [now apply literals_iff |]. exists t. repeat split; try assumption; apply H. Qed.
Lemma escape_exists e c : escape e c -> exists k, escape_tree k e c.
Proof.
  intros H. pose proof H as H0. unfold escape in H. cbn [In] in H.
  assert (E : exists k, nth_error [34; 92; 47; 98; 102; 110; 114; 116]%N k = Some e /\ nth_error ascii_escapes k = Some c).
  { repeat (destruct H as [[= <- <-] | H]); [exists 0 | exists 1 | exists 2 | exists 3 | exists 4 | exists 5 | exists 6 | exists 7 | contradiction]; split; reflexivity. }
  destruct E as (k & E1 & E2). exists k. split; [apply (class_iff _ _ _ _ class_ascii); eauto | auto].
Qed.
Lemma unicode_exists u : hex4 u -> exists h1 h2 h3 h4, unicode_tree h1 h2 h3 h4 u.
Proof.
  intros Hu. pose proof Hu as [Hl H]. destruct u as [| c1 [| c2 [| c3 [| c4 [| ? ?]]]]]; try discriminate. rewrite !Forall_cons_iff in H. destruct H as (D1 & D2 & D3 & D4 & _).
  apply hex_iff in D1, D2, D3, D4.
  destruct (class_complete _ _ _ c1 class_hex D1) as (h1 & H1 & E1 & C1). destruct (class_complete _ _ _ c2 class_hex D2) as (h2 & H2 & E2 & C2).
  destruct (class_complete _ _ _ c3 class_hex D3) as (h3 & H3 & E3 & C3). destruct (class_complete _ _ _ c4 class_hex D4) as (h4 & H4 & E4 & C4).
  exists h1, h2, h3, h4. split; [repeat (constructor; [assumption |]); constructor |]. split; [exact Hu |]. split; [| now rewrite E1, E2, E3, E4].
  unfold decode. rewrite C1, C2, C3, C4. now apply from_hex_ok.
Qed.
Lemma surrogate_iff n : is_surrogate n = true <-> surrogate n.
Proof. unfold is_surrogate, in_range, surrogate, high_surrogate, low_surrogate. rewrite andb_true_iff, !N.leb_le. lia. Qed.
Lemma not_surrogate n : is_surrogate n = false <-> ~ surrogate n.
Proof. rewrite <- surrogate_iff. destruct (is_surrogate n); split; congruence. Qed.
Lemma decode_pair_iff one other n : decode_pair one other = Some n <->
  (high_surrogate one /\ low_surrogate other /\ n = pair_value one other) \/ (low_surrogate one /\ high_surrogate other /\ n = pair_value other one).
Proof.
  unfold decode_pair, is_low, is_high, in_range, high_surrogate, low_surrogate, pair_value.
  destruct (N.leb_spec 56320 one), (N.leb_spec one 57343), (N.leb_spec 56320 other), (N.leb_spec other 57343), (N.leb_spec 55296 one), (N.leb_spec one 56319), (N.leb_spec 55296 other), (N.leb_spec other 56319);
    cbn [andb]; split; intros Hx; try discriminate; try lia; try (injection Hx as <-; lia); f_equal; lia.
Qed.
Lemma char_ok n : ~ surrogate n -> (n <= max_char)%N -> char_of_u32 n = Some n.
Proof.
  intros H1 H2. unfold char_of_u32. apply not_surrogate in H1. unfold is_surrogate in H1. rewrite H1. cbn [orb]. unfold max_char in H2.
  destruct (N.ltb_spec 1114111 n); [lia | reflexivity].
Qed.
Lemma pair_ok h l : high_surrogate h -> low_surrogate l -> char_of_u32 (pair_value h l) = Some (pair_value h l).
Proof.
  intros H1 H2. unfold high_surrogate, low_surrogate in *. apply char_ok; [unfold surrogate, high_surrogate, low_surrogate, pair_value; lia |]. unfold pair_value, max_char. lia.
Qed.

(** The strings of [rfc8259]. *)
Fixpoint plain_chars (t : tree) : rstr :=
  match t with
  | NAlt 1 (NCat [NAlt 0 l; NBox rest]) => match to_char T 142 l with Some c => c | None => 0%N end :: plain_chars rest
  | NAlt 1 (NCat [NAlt 1 (NCat [_; NAlt 0 (NAlt k _)]); NBox rest]) => match nth_error ascii_escapes k with Some c => c | None => 0%N end :: plain_chars rest
  | NAlt 1 (NCat [_; NBox rest]) => 0%N :: plain_chars rest
  | _ => []
  end.
Definition plain_string (t : tree) : option rstr := match t with NCat [_; star; _] => Some (plain_chars star) | _ => None end.
Lemma chars_star t : derives T 63 t <-> exists l, t = star_tree l /\ Forall char_tree l.
Proof.
  rewrite (star_iff T _ _ _ _ _ _ _ ids_chars). split; intros (l & -> & H); exists l; (split; [reflexivity |]); eapply Forall_impl; try exact H; [exact char_tree_sound | exact char_tree_derives].
Qed.
Lemma plain_chars_sound l : Forall char_tree l -> Chars rfc8259 (flat_map yield l) (plain_chars (star_tree l)).
Proof.
  induction 1 as [| t l [x c (_ & Ec & Ey & Hp) | k e c (_ & Ec & He) | h1 h2 h3 h4 u (_ & Hu & _ & E)] _ IH]; cbn [flat_map star_tree plain_chars yield].
  - constructor.
  - rewrite Ec, Ey. apply chars_plain; assumption.
  - rewrite Ec. cbn [app]. now apply chars_escape.
  - rewrite !app_nil_r, E. apply (chars_unicode rfc8259 u); [now split | exact IH].
Qed.
Lemma plain_chars_complete w s : Chars rfc8259 w s -> exists l, Forall char_tree l /\ flat_map yield l = w /\ plain_chars (star_tree l) = s.
Proof.
  induction 1 as [| c w s Hc _ (l & Hl & <- & <-) | e c w s He _ (l & Hl & <- & <-) | u c w s [Hu ->] _ (l & Hl & <- & <-)].
  - exists []. repeat split; constructor.
  - destruct (lit_exists c Hc) as [x Hx]. exists (NAlt 0 x :: l). pose proof Hx as (_ & Ec & Ey & _). split; [constructor; [now apply (char_literal x c) | exact Hl] |].
    cbn [flat_map star_tree plain_chars yield]. rewrite Ec, Ey. auto.
  - destruct (escape_exists e c He) as [k Hk]. exists (NAlt 1 (NCat [NLit [92%N]; NAlt 0 (NAlt k (NLit [e]))]) :: l). pose proof Hk as (_ & Ec & _).
    split; [constructor; [now apply (char_ascii k e c) | exact Hl] |]. cbn [flat_map star_tree plain_chars yield]. rewrite Ec. auto.
  - destruct (unicode_exists u Hu) as (h1 & h2 & h3 & h4 & Hh). pose proof Hh as (_ & _ & _ & E). eexists (_ :: l). split; [constructor; [exact (char_unicode _ _ _ _ _ Hh) | exact Hl] |].
    cbn [flat_map star_tree plain_chars yield]. rewrite !app_nil_r, E. auto.
Qed.
Section Strings.
  Context {num : Type}.
  Variable conv : rstr -> option num.
  Lemma collect_sound l : forall s, Forall char_tree l -> collect_chars (star_tree l) = Some s -> Chars (generated conv) (flat_map yield l) s.
  Proof.
    induction l as [l IH] using (well_founded_induction (well_founded_ltof _ (@length tree))). unfold ltof in IH. intros s Hl Hs.
    destruct Hl as [| t l [x c (_ & Ec & Ey & Hp) | k e c (_ & Ec & He) | h1 h2 h3 h4 u (_ & Hu & Ed & E)] Hl]; cbn [flat_map star_tree collect_chars yield] in *.
    - injection Hs as <-. constructor.
    - rewrite Ec in Hs. destruct (collect_chars (star_tree l)) as [s' |] eqn:Es; [| discriminate]. injection Hs as <-. rewrite Ey.
      apply chars_plain; [exact Hp |]. apply IH; [cbn; lia | exact Hl | exact Es].
    - rewrite Ec in Hs. destruct (collect_chars (star_tree l)) as [s' |] eqn:Es; [| discriminate]. injection Hs as <-. cbn [app].
      apply chars_escape; [exact He |]. apply IH; [cbn; lia | exact Hl | exact Es].
    - rewrite Ed in Hs. rewrite !app_nil_r, E. destruct (is_surrogate (hex_number u)) eqn:Eu.
      + destruct Hl as [| t2 l2 [x c (_ & Ec & Ey & Hp) | k e c (_ & Ec & He) | g1 g2 g3 g4 u' (_ & Hu' & Ed' & E')] Hl]; cbn [star_tree] in Hs; try discriminate Hs.
        rewrite Ed' in Hs. destruct (is_surrogate (hex_number u')) eqn:Eu'; [| discriminate]. destruct (decode_pair (hex_number u) (hex_number u')) as [n |] eqn:Ep; [| discriminate].
        destruct (char_of_u32 n) as [c |] eqn:Ec; [| discriminate]. destruct (collect_chars (star_tree l2)) as [s' |] eqn:Es; [| discriminate]. injection Hs as <-.
        cbn [flat_map yield]. rewrite !app_nil_r, E'.
        replace (([92%N] ++ lit "u" ++ u) ++ ([92%N] ++ lit "u" ++ u') ++ flat_map yield l2) with (backslash :: chr "u" :: (u ++ backslash :: chr "u" :: u') ++ flat_map yield l2)
          by (cbn; rewrite <- !app_assoc; reflexivity).
        apply chars_unicode; [| apply IH; [cbn; lia | exact Hl | exact Es]]. cbn [unicode generated].
        apply decode_pair_iff in Ep as [(P1 & P2 & ->) | (P1 & P2 & ->)]; rewrite (pair_ok _ _) in Ec by assumption; injection Ec as <-; [now apply high_low | now apply low_high].
      + apply not_surrogate in Eu. rewrite char_ok in Hs; [| exact Eu | destruct (from_hex_ok u Hu); unfold max_char; lia].
        destruct (collect_chars (star_tree l)) as [s' |] eqn:Es; [| discriminate]. injection Hs as <-. apply (chars_unicode (generated conv) u); [now apply one_unit |].
        apply IH; [cbn; lia | exact Hl | exact Es].
  Qed.
  Lemma collect_complete w s : Chars (generated conv) w s -> exists l, Forall char_tree l /\ flat_map yield l = w /\ collect_chars (star_tree l) = Some s.
  Proof.
    induction 1 as [| c w s Hc _ (l & Hl & <- & Es) | e c w s He _ (l & Hl & <- & Es) | u c w s Hu _ (l & Hl & <- & Es)].
    - exists []. repeat split; constructor.
    - destruct (lit_exists c Hc) as [x Hx]. exists (NAlt 0 x :: l). pose proof Hx as (_ & Ec & Ey & _). split; [constructor; [now apply (char_literal x c) | exact Hl] |].
      cbn [flat_map star_tree collect_chars yield]. rewrite Ec, Ey, Es. auto.
    - destruct (escape_exists e c He) as [k Hk]. exists (NAlt 1 (NCat [NLit [92%N]; NAlt 0 (NAlt k (NLit [e]))]) :: l). pose proof Hk as (_ & Ec & _).
      split; [constructor; [now apply (char_ascii k e c) | exact Hl] |]. cbn [flat_map star_tree collect_chars yield]. rewrite Ec, Es. auto.
    - cbn [unicode generated] in Hu. assert (Hpair : forall u u' c, hex4 u -> hex4 u' -> surrogate (hex_number u) -> surrogate (hex_number u') -> decode_pair (hex_number u) (hex_number u') = Some c ->
        char_of_u32 c = Some c -> exists m, Forall char_tree m /\ flat_map yield m = (backslash :: chr "u" :: (u ++ backslash :: chr "u" :: u') ++ flat_map yield l) /\ collect_chars (star_tree m) = Some (c :: s)).
      { clear u c Hu. intros u u' c Hu Hu' Ss Ss' Ep Ec. destruct (unicode_exists u Hu) as (h1 & h2 & h3 & h4 & Hh). destruct (unicode_exists u' Hu') as (g1 & g2 & g3 & g4 & Hg).
        pose proof Hh as (_ & _ & Ed & E). pose proof Hg as (_ & _ & Ed' & E'). eexists (_ :: _ :: l).
        split; [constructor; [exact (char_unicode _ _ _ _ _ Hh) | constructor; [exact (char_unicode _ _ _ _ _ Hg) | exact Hl]] |].
        cbn [flat_map star_tree collect_chars yield]. rewrite !app_nil_r, E, E'. split; [cbn; rewrite <- !app_assoc; reflexivity |].
        apply surrogate_iff in Ss, Ss'. now rewrite Ed, Ss, Ed', Ss', Ep, Ec, Es. }
      destruct Hu as [u Hu Hn | u u' Hu Hu' P1 P2 | u u' Hu Hu' P1 P2].
      + destruct (unicode_exists u Hu) as (h1 & h2 & h3 & h4 & Hh). pose proof Hh as (_ & _ & Ed & E). eexists (_ :: l). split; [constructor; [exact (char_unicode _ _ _ _ _ Hh) | exact Hl] |].
        cbn [flat_map star_tree collect_chars yield]. rewrite !app_nil_r, E. split; [reflexivity |]. pose proof (proj2 (not_surrogate _) Hn) as Hn'. rewrite Ed, Hn'.
        rewrite char_ok; [now rewrite Es | exact Hn | destruct (from_hex_ok u Hu); unfold max_char; lia].
      + apply Hpair; auto; [now left | now right | apply decode_pair_iff; auto | now apply pair_ok].
      + apply Hpair; auto; [now right | now left | apply decode_pair_iff; auto | now apply pair_ok].
  Qed.
End Strings.
Lemma quoted_sound {num} (D : dialect num) (f : tree -> rstr -> Prop) t s :
  (forall l s, Forall char_tree l -> f (star_tree l) s -> Chars D (flat_map yield l) s) ->
  derives T 153 t -> (exists a b star, t = NCat [a; star; b] /\ f star s) -> Quoted D (yield t) s.
Proof.
  intros Hf H (a & b & star & -> & Hs). eapply cat3_inv in H as (x & y & z & [= -> -> ->] & Hx & Hy & Hz); [| reflexivity].
  eapply lit_inv in Hx as ->; [| reflexivity]. eapply lit_inv in Hz as ->; [| reflexivity]. apply chars_star in Hy as (l & -> & Hl).
  cbn [yield flat_map]. rewrite star_yield. constructor. now apply Hf.
Qed.
Lemma quoted_tree l : Forall char_tree l -> derives T 153 (NCat [NLit [34%N]; star_tree l; NLit [34%N]]) /\ yield (NCat [NLit [34%N]; star_tree l; NLit [34%N]]) = quote :: flat_map yield l ++ [quote].
Proof.
  intros Hl. split; [| cbn [yield flat_map]; now rewrite star_yield]. eapply (derives_cat T 153); [reflexivity |]. constructor; [now eapply derives_lit |].
  constructor; [apply chars_star; eauto |]. constructor; [now eapply derives_lit | constructor].
Qed.
