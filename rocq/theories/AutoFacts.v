(** * AutoFacts: the values of the types generated for autonibble. *)
From Coq Require Import String.
From Verif Require Export AutoNibble SpecAuto GenTrees SyntaxFacts ConvertFacts.
From Coq Require Import List Lia.
Open Scope list_scope.

Notation T := auto_tab.
Ltac solve_class := unfold class; repeat eexists; vm_compute; reflexivity.
Lemma in_interval a n c : (a <= c < a + N.of_nat n)%N -> In c (map N.of_nat (seq (N.to_nat a) n)).
Proof. intros H. apply in_map_iff. exists (N.to_nat c). split; [apply N2Nat.id | apply in_seq; lia]. Qed.

Ltac lit_in H := eapply lit_inv in H; [| reflexivity]; match type of H with ?x = _ => subst x end.

(** ** White space *)
Definition white_chars : list char := [9; 10; 11; 12; 13; 32; 133; 8206; 8207; 8232; 8233]%N.
Lemma class_white : class T 12 white_chars. Proof. solve_class. Qed.
Lemma ids_ws : plus_ids T 17 21 12 20 18 19. Proof. repeat split; repeat eexists; reflexivity. Qed.
Lemma white_complete c : white c -> exists t, derives T 12 t /\ yield t = [c].
Proof. intros H. destruct (class_complete _ _ _ c class_white H) as (t & Ht & E & _). eauto. Qed.
Lemma white_sound t : derives T 12 t -> exists c, yield t = [c] /\ white c.
Proof. intros H. apply (class_sound _ _ _ _ class_white) in H as (c & E & H & _). eauto. Qed.
Lemma ws_sound t : derives T 17 t -> yield t <> [] /\ gap (yield t).
Proof. apply (plus_sound T _ _ _ _ _ _ _ t ids_ws white_sound). Qed.
Lemma ws_complete w : w <> [] -> gap w -> exists t, derives T 17 t /\ yield t = w.
Proof. apply (plus_complete T _ _ _ _ _ _ _ w ids_ws white_complete). Qed.
Definition ows_id (o : nat) : Prop := exists p e f n a c, def_of T o = Some (DAlt p [e; 17] f n a c) /\ def_of T e = Some DEps.
Definition ows_ids : list nat := [105; 179; 183; 199; 206; 211; 217; 223; 225; 229; 234].
Lemma is_ows o : In o ows_ids -> ows_id o.
Proof. intros H. cbn in H. repeat (destruct H as [<- | H]; [repeat eexists; reflexivity |]). destruct H. Qed.
Ltac ows := apply is_ows; cbn; tauto.
Lemma ows_sound o t : ows_id o -> derives T o t -> gap (yield t).
Proof.
  intros (p & e & f & n & a & c & Eo & Ee) H. apply (opt_iff T _ _ _ _ _ _ _ _ _ Eo Ee) in H as [-> | (t' & -> & H)]; [constructor |]. exact (proj2 (ws_sound _ H)).
Qed.
Lemma ows_complete o w : ows_id o -> gap w -> exists t, derives T o t /\ yield t = w.
Proof.
  intros (p & e & f & n & a & c & Eo & Ee) H. destruct w as [| x w].
  - exists (NAlt 0 NEps). split; [| reflexivity]. apply (opt_iff T _ _ _ _ _ _ _ _ _ Eo Ee). auto.
  - destruct (ws_complete (x :: w)) as (t & Ht & E); [discriminate | exact H |]. exists (NAlt 1 t). split; [| exact E]. apply (opt_iff T _ _ _ _ _ _ _ _ _ Eo Ee). eauto.
Qed.

(** ** Names *)
Definition letters : list char := Eval vm_compute in map N.of_nat (seq 97 26) ++ map N.of_nat (seq 65 26).
Lemma class_letter : class T 75 letters. Proof. solve_class. Qed.
Lemma letters_iff c : In c letters <-> letter c.
Proof.
  change letters with (map N.of_nat (seq (N.to_nat 97) 26) ++ map N.of_nat (seq (N.to_nat 65) 26)). unfold letter. rewrite in_app_iff, !in_map_iff. split.
  - intros [(x & <- & H) | (x & <- & H)]; apply in_seq in H; lia.
  - intros [H | H]; [left | right]; (exists (N.to_nat c); split; [apply N2Nat.id | apply in_seq; lia]).
Qed.
Lemma letter_sound t : derives T 75 t -> exists c, yield t = [c] /\ letter c.
Proof. intros H. apply (class_sound _ _ _ _ class_letter) in H as (c & E & H & _). apply letters_iff in H. eauto. Qed.
Lemma letter_complete c : letter c -> exists t, derives T 75 t /\ yield t = [c].
Proof. intros H. destruct (class_complete _ _ _ c class_letter) as (t & Ht & E & _); [now apply letters_iff |]. eauto. Qed.
Definition others : list char := lit "_0123456789".
Lemma others_iff c : In c others <-> c = 95%N \/ (48 <= c <= 57)%N.
Proof.
  change others with (95%N :: map N.of_nat (seq (N.to_nat 48) 10)). cbn [In]. rewrite in_map_iff. split.
  - intros [<- | (x & <- & H)]; [now left | apply in_seq in H; lia].
  - intros [-> | H]; [now left | right]. exists (N.to_nat c). split; [apply N2Nat.id | apply in_seq; lia].
Qed.
Lemma continue_def : exists p f n a c, def_of T 89 = Some (DAlt p [75; 78; 79; 80; 81; 82; 83; 84; 85; 86; 87; 88] f n a c).
Proof. repeat eexists; reflexivity. Qed.
Lemma others_lits : lit_chars T [78; 79; 80; 81; 82; 83; 84; 85; 86; 87; 88] = Some others. Proof. vm_compute. reflexivity. Qed.
Lemma continue_sound t : derives T 89 t -> exists c, yield t = [c] /\ word_char c.
Proof.
  intros H. destruct continue_def as (p & f & n & a & c & E). apply (alt_inv _ _ _ _ _ _ _ _ _ E) in H as (k & j & t' & -> & Hk & H). destruct k as [| k]; cbn [nth_error] in Hk.
  - injection Hk as <-. apply letter_sound in H as (x & Ex & Hx). exists x. split; [exact Ex | now left].
  - pose proof (lit_chars_nth T _ _ others_lits k) as L. rewrite Hk in L. destruct L as (x & Hx & Hj). apply (lit_inv _ _ _ _ _ Hj) in H as ->. exists x. split; [reflexivity |].
    right. apply others_iff. now apply nth_error_In in Hx.
Qed.
Lemma continue_complete c : word_char c -> exists t, derives T 89 t /\ yield t = [c].
Proof.
  intros H. destruct continue_def as (p & f & n & a & b & E). destruct H as [H | H].
  - apply letter_complete in H as (t & Ht & Ey). exists (NAlt 0 t). split; [| exact Ey]. eapply derives_alt; [exact E | reflexivity | exact Ht].
  - apply others_iff in H. apply In_nth_error in H as [k Hk]. pose proof (lit_chars_nth T _ _ others_lits k) as L.
    destruct (nth_error [78; 79; 80; 81; 82; 83; 84; 85; 86; 87; 88] k) as [j |] eqn:Hj; [| congruence]. destruct L as (x & Hx & Hd). rewrite Hk in Hx. injection Hx as <-.
    exists (NAlt (S k) (NLit [c])). split; [| reflexivity]. eapply derives_alt; [exact E | exact Hj | eapply derives_lit; exact Hd].
Qed.
Lemma ids_word : plus_ids T 77 93 89 92 90 91. Proof. repeat split; repeat eexists; reflexivity. Qed.
Definition word_id (i : nat) : Prop := exists n p s p' e f n' a c,
  def_of T i = Some (DCat n p [75; s]) /\ def_of T s = Some (DAlt p' [e; 77] f n' a c) /\ def_of T e = Some DEps.
Definition word_ids : list nat := [95; 188; 209].
Lemma is_word_id i : In i word_ids -> word_id i.
Proof. intros H. cbn in H. repeat (destruct H as [<- | H]; [repeat eexists; reflexivity |]). destruct H. Qed.
Ltac wid := apply is_word_id; cbn; tauto.
Lemma word_sound i t : word_id i -> derives T i t -> word (yield t).
Proof.
  intros (n & p & s & p' & e & f & n' & a & c & Ei & Es & Ee) H. apply (cat2_inv _ _ _ _ _ _ _ Ei) in H as (x & y & -> & Hx & Hy). apply letter_sound in Hx as (l & El & Hl).
  exists l, (yield y). cbn [yield flat_map]. rewrite El, app_nil_r. split; [reflexivity |]. split; [exact Hl |].
  apply (opt_iff T _ _ _ _ _ _ _ _ _ Es Ee) in Hy as [-> | (t' & -> & H)]; [constructor |]. exact (proj2 (plus_sound T _ _ _ _ _ _ _ t' ids_word continue_sound H)).
Qed.
Lemma word_complete i w : word_id i -> word w -> exists t, derives T i t /\ yield t = w.
Proof.
  intros (n & p & s & p' & e & f & n' & a & c & Ei & Es & Ee) (l & cs & -> & Hl & Hc). apply letter_complete in Hl as (x & Hx & Ex).
  assert (exists y, derives T s y /\ yield y = cs) as (y & Hy & Ey).
  { destruct cs as [| d cs].
    - exists (NAlt 0 NEps). split; [| reflexivity]. apply (opt_iff T _ _ _ _ _ _ _ _ _ Es Ee). auto.
    - destruct (plus_complete T _ _ _ _ _ _ _ (d :: cs) ids_word continue_complete) as (y & Hy & Ey); [discriminate | exact Hc |]. exists (NAlt 1 y). split; [| exact Ey].
      apply (opt_iff T _ _ _ _ _ _ _ _ _ Es Ee). eauto. }
  exists (NCat [x; y]). split; [| cbn [yield flat_map]; now rewrite Ex, Ey, app_nil_r]. eapply derives_cat; [exact Ei |]. repeat (constructor; [assumption |]). constructor.
Qed.

(** ** String literals *)
Definition plain_chars : list char := Eval vm_compute in filter (fun c => negb (N.eqb c 34 || N.eqb c 92)) (map N.of_nat (seq 32 95)).
Lemma class_plain : class T 141 plain_chars. Proof. solve_class. Qed.
Lemma plain_iff c : In c plain_chars <-> (32 <= c <= 126)%N /\ c <> 34%N /\ c <> 92%N.
Proof.
  change plain_chars with (filter (fun c => negb (N.eqb c 34 || N.eqb c 92)) (map N.of_nat (seq (N.to_nat 32) 95))). rewrite filter_In, negb_true_iff, orb_false_iff, !N.eqb_neq, in_map_iff. split.
  - intros [(x & <- & H) E]. apply in_seq in H. split; [lia | exact E].
  - intros [H E]. split; [| exact E]. exists (N.to_nat c). split; [apply N2Nat.id | apply in_seq; lia].
Qed.
Definition escape_letters : list char := [34; 39; 110; 114; 116; 92; 48]%N.
Lemma class_ascii : class T 143 escape_letters. Proof. solve_class. Qed.
Lemma class_oct : class T 144 (lit "01234567"). Proof. solve_class. Qed.
Lemma class_hex : class T 145 (lit "0123456789abcdefABCDEF"). Proof. solve_class. Qed.
Lemma oct_iff c : In c (lit "01234567") <-> (48 <= c <= 55)%N.
Proof.
  change (lit "01234567") with (map N.of_nat (seq (N.to_nat 48) 8)). rewrite in_map_iff. split.
  - intros (x & <- & H). apply in_seq in H. lia.
  - intros H. exists (N.to_nat c). split; [apply N2Nat.id | apply in_seq; lia].
Qed.
Lemma hex_iff c : In c (lit "0123456789abcdefABCDEF") <-> hex_digit c.
Proof.
  change (lit "0123456789abcdefABCDEF") with (map N.of_nat (seq (N.to_nat 48) 10) ++ map N.of_nat (seq (N.to_nat 97) 6) ++ map N.of_nat (seq (N.to_nat 65) 6)).
  unfold hex_digit. rewrite !in_app_iff, !in_map_iff. split.
  - intros [(x & <- & H) | [(x & <- & H) | (x & <- & H)]]; apply in_seq in H; lia.
  - intros [H | [H | H]]; [left | right; left | right; right]; (exists (N.to_nat c); split; [apply N2Nat.id | apply in_seq; lia]).
Qed.
Lemma hex_sound t : derives T 145 t -> exists c, yield t = [c] /\ hex_digit c /\ to_char T 145 t = Some c.
Proof. intros H. apply (class_sound _ _ _ _ class_hex) in H as (c & E & H & Hc). apply hex_iff in H. eauto. Qed.
Lemma hex_complete c : hex_digit c -> exists t, derives T 145 t /\ yield t = [c] /\ to_char T 145 t = Some c.
Proof. intros H. apply (class_complete _ _ _ c class_hex). now apply hex_iff. Qed.

(** One to six hexadecimal digits.  The seventh is the empty type. *)
Lemma bot_empty : forall n t, tree_size t <= n -> ~ derives T 154 t.
Proof.
  induction n as [| n IH]; intros t Hk H; [destruct t; cbn in Hk; lia |]. eapply fix_inv in H; [| reflexivity]. eapply cat2_inv in H as (x & y & -> & Hx & Hy); [| reflexivity].
  eapply box_inv in Hy as (z & -> & Hz); [| reflexivity]. cbn in Hk. apply (IH z); [lia | exact Hz].
Qed.
(** [some = hex . opt some'] *)
Definition digits_id (d o e s : nat) : Prop := (exists n p, def_of T d = Some (DCat n p [145; o])) /\ (exists p f n a c, def_of T o = Some (DAlt p [e; s] f n a c)) /\ def_of T e = Some DEps.
Definition up_to (k d : nat) : Prop := forall w, (exists t, derives T d t /\ yield t = w) <-> (w <> [] /\ length w <= k /\ Forall hex_digit w).
Lemma up_to_0 : up_to 0 154.
Proof. intros w. split; [intros (t & H & _); now apply bot_empty with (n := tree_size t) in H | intros (Hn & Hl & _); destruct w; [now elim Hn | cbn in Hl; lia]]. Qed.
Lemma up_to_S k d o e s : digits_id d o e s -> up_to k s -> up_to (S k) d.
Proof.
  intros ((n & p & Ed) & (p' & f & n' & a & c & Eo) & Ee) Hs w. split.
  - intros (t & H & <-). apply (cat2_inv _ _ _ _ _ _ _ Ed) in H as (x & y & -> & Hx & Hy). apply hex_sound in Hx as (h & Eh & Hh & _). cbn [yield flat_map]. rewrite Eh, app_nil_r. split; [discriminate |].
    apply (opt_iff T _ _ _ _ _ _ _ _ _ Eo Ee) in Hy as [-> | (t' & -> & H)]; cbn [yield app length]; [split; [lia | now constructor] |].
    destruct (proj1 (Hs (yield t')) (ex_intro _ t' (conj H eq_refl))) as (_ & Hl & Hd). split; [lia | now constructor].
  - intros (Hn & Hl & Hd). destruct w as [| h w]; [now elim Hn |]. apply Forall_cons_iff in Hd as [Hh Hd]. apply hex_complete in Hh as (x & Hx & Ex & _).
    assert (exists y, derives T o y /\ yield y = w) as (y & Hy & Ey).
    { destruct w as [| h' w].
      - exists (NAlt 0 NEps). split; [| reflexivity]. apply (opt_iff T _ _ _ _ _ _ _ _ _ Eo Ee). auto.
      - destruct (proj2 (Hs (h' :: w))) as (t & Ht & E); [split; [discriminate |]; split; [cbn in Hl |- *; lia | exact Hd] |]. exists (NAlt 1 t). split; [| exact E].
        apply (opt_iff T _ _ _ _ _ _ _ _ _ Eo Ee). eauto. }
    exists (NCat [x; y]). split; [| cbn [yield flat_map]; now rewrite Ex, Ey, app_nil_r]. eapply derives_cat; [exact Ed |]. repeat (constructor; [assumption |]). constructor.
Qed.
Lemma up_to_6 : up_to 6 168.
Proof.
  apply (up_to_S 5 168 167 148 166); [repeat split; repeat eexists; reflexivity |]. apply (up_to_S 4 166 165 149 164); [repeat split; repeat eexists; reflexivity |].
  apply (up_to_S 3 164 163 150 162); [repeat split; repeat eexists; reflexivity |]. apply (up_to_S 2 162 161 151 160); [repeat split; repeat eexists; reflexivity |].
  apply (up_to_S 1 160 159 152 158); [repeat split; repeat eexists; reflexivity |]. apply (up_to_S 0 158 157 153 154); [repeat split; repeat eexists; reflexivity |]. exact up_to_0.
Qed.

(** The number of a character, and the character. *)
Lemma digit16_ok c : hex_digit c -> digit16 c = Some (digit_value c) /\ (digit_value c < 16)%N.
Proof.
  unfold hex_digit, digit16, digit_value. intros H.
  destruct (N.leb_spec 48 c), (N.leb_spec c 57), (N.leb_spec 97 c), (N.leb_spec c 102), (N.leb_spec 65 c), (N.leb_spec c 70); cbn [andb]; split; try reflexivity; lia.
Qed.
Lemma radix16_ok ds : forall acc k, Forall hex_digit ds -> length ds <= k -> k <= 8 -> (acc < 16 ^ N.of_nat (8 - k))%N ->
  radix16 acc ds = Some (fold_left (fun n c => 16 * n + digit_value c)%N ds acc).
Proof.
  induction ds as [| c ds IH]; intros acc k Hd Hl Hk Hb; [reflexivity |]. apply Forall_cons_iff in Hd as [Hc Hd]. apply digit16_ok in Hc as [E Hv]. cbn [radix16 fold_left]. rewrite E.
  cbn [length] in Hl. destruct k as [| k]; [lia |]. assert (Hb' : (16 * acc + digit_value c < 16 ^ N.of_nat (8 - k))%N).
  { replace (8 - k) with (S (8 - S k)) by lia. rewrite Nat2N.inj_succ, N.pow_succ_r'. lia. }
  assert (Hm : (16 ^ N.of_nat (8 - k) <= 16 ^ 8)%N) by (apply N.pow_le_mono_r; lia). change (16 ^ 8)%N with 4294967296%N in Hm.
  rewrite (proj2 (N.ltb_lt _ _)) by lia. apply (IH _ k); [exact Hd | lia | lia | exact Hb'].
Qed.
Lemma char_try_from_ok n : scalar n -> char_try_from n = Some n.
Proof.
  unfold scalar, char_try_from. intros [H | H].
  - now rewrite (proj2 (N.ltb_lt _ _)).
  - rewrite (proj2 (N.ltb_lt 57343 n)), (proj2 (N.ltb_lt n 1114112)) by lia. now rewrite orb_true_r.
Qed.
Lemma char_try_from_some n c : char_try_from n = Some c -> c = n /\ scalar n.
Proof.
  unfold scalar, char_try_from. destruct (N.ltb_spec n 55296), (N.ltb_spec 57343 n), (N.ltb_spec n 1114112); cbn [orb andb]; intros E; try discriminate; injection E as <-; split; try reflexivity; lia.
Qed.
Definition checked (n : N) (r : option char) : Prop := (scalar n -> r = Some n) /\ (forall c, r = Some c -> c = n /\ scalar n).
Lemma hex_char_ok ds : ds <> [] -> length ds <= 6 -> Forall hex_digit ds -> checked (hex_number ds) (hex_char ds).
Proof.
  intros Hn Hl Hd. assert (E : hex_char ds = char_try_from (hex_number ds)).
  { unfold hex_char, from_str_radix_16. destruct ds as [| c ds]; [now elim Hn |]. rewrite (radix16_ok _ _ 6); [reflexivity | exact Hd | exact Hl | lia | now vm_compute]. }
  rewrite E. split; [apply char_try_from_ok | apply char_try_from_some].
Qed.
Definition char_tree (n : N) (t : tree) : Prop := derives T 172 t /\ char_text n (yield t) /\ checked n (char_of t).
Lemma scalar_small n : (n < 55296)%N -> scalar n. Proof. unfold scalar. auto. Qed.
Lemma checked_small n : (n < 55296)%N -> checked n (Some n).
Proof. intros H. split; [reflexivity |]. intros c [= <-]. split; [reflexivity | now apply scalar_small]. Qed.
Definition escape_pairs : list (char * char) := [(34, 34); (39, 39); (110, 10); (114, 13); (116, 9); (92, 92); (48, 0)]%N.
Lemma escape_nth k e : nth_error escape_letters k = Some e -> exists c, nth_error ascii_escape k = Some c /\ In (e, c) escape_pairs /\ (c < 55296)%N.
Proof. do 7 (destruct k as [| k]; [intros [= <-]; eexists; split; [reflexivity |]; split; [cbn; tauto | lia] |]). destruct k; discriminate. Qed.
Lemma nth_escape e c : In (e, c) escape_pairs -> exists k, nth_error escape_letters k = Some e /\ nth_error ascii_escape k = Some c /\ (c < 55296)%N.
Proof.
  unfold escape_pairs. cbn [In]. intros H.
  repeat (destruct H as [[= <- <-] | H]); [exists 0 | exists 1 | exists 2 | exists 3 | exists 4 | exists 5 | exists 6 | contradiction]; (split; [reflexivity | split; [reflexivity | lia]]).
Qed.
Lemma escape_derives t : derives T 170 t -> derives T 172 (NAlt 1 (NCat [NLit [92%N]; t])).
Proof.
  intros H. eapply (derives_alt T 172); [reflexivity | reflexivity |]. eapply (derives_cat T 171); [reflexivity |]. constructor; [now eapply derives_lit |]. constructor; [exact H | constructor].
Qed.
Lemma char_sound t : derives T 172 t -> exists n, char_tree n t.
Proof.
  intros H. pose proof H as H0. eapply alt2_inv in H as [(l & -> & H) | (x & -> & H)]; [| | reflexivity].
  - apply (class_sound _ _ _ _ class_plain) in H as (c & E & H & Hc). apply plain_iff in H as (H1 & H2 & H3). exists c. split; [exact H0 |]. cbn [yield]. rewrite E. split; [now constructor |].
    cbn [char_of]. rewrite Hc. apply checked_small. lia.
  - eapply cat2_inv in H as (y & z & -> & Hy & H); [| reflexivity]. lit_in Hy.
    eapply alt3_inv in H as [(a & -> & H) | [(a & -> & H) | (a & -> & H)]]; [| | | reflexivity].
    + apply (class_iff _ _ _ _ class_ascii) in H as (k & e & -> & Hk). destruct (escape_nth k e Hk) as (c & Hc & He & Hb). exists c. split; [exact H0 |]. split; [now constructor |].
      cbn [char_of]. rewrite Hc. now apply checked_small.
    + eapply cat3_inv in H as (p & o & h & -> & Hp & Ho & Hh); [| reflexivity]. lit_in Hp.
      apply (class_sound _ _ _ _ class_oct) in Ho as (c & Eo & Ho & Co). apply oct_iff in Ho. apply hex_sound in Hh as (d & Eh & Hh & Ch).
      exists (hex_number [c; d]). split; [exact H0 |]. cbn [yield flat_map]. rewrite Eo, Eh. split; [now constructor |].
      cbn [char_of]. rewrite Co, Ch. apply hex_char_ok; [discriminate | cbn; lia |]. constructor; [unfold hex_digit; lia | now constructor].
    + eapply cat3_inv in H as (p & u & q & -> & Hp & Hu & Hq); [| reflexivity]. lit_in Hp. lit_in Hq.
      destruct (proj1 (up_to_6 (yield u)) (ex_intro _ u (conj Hu eq_refl))) as (Hn & Hl & Hd). exists (hex_number (yield u)). split; [exact H0 |]. split; [| now apply hex_char_ok].
      cbn [yield flat_map]. rewrite app_nil_r. exact (text_unicode (yield u) Hn Hl Hd).
Qed.
Lemma char_complete n w : char_text n w -> exists t, char_tree n t /\ yield t = w.
Proof.
  intros H. destruct H as [c H1 H2 H3 | e c H | o h Ho Hh | ds Hn Hl Hd].
  - destruct (class_complete _ _ _ c class_plain) as (t & Ht & E & Hc); [now apply plain_iff |]. exists (NAlt 0 t). split; [| exact E]. split; [now eapply (derives_alt T 172) |].
    split; [cbn [yield]; rewrite E; now constructor |]. cbn [char_of]. rewrite Hc. apply checked_small. lia.
  - destruct (nth_escape e c H) as (k & Hk & Hc & Hb). exists (NAlt 1 (NCat [NLit [92%N]; NAlt 0 (NAlt k (NLit [e]))])). split; [| reflexivity].
    split; [apply escape_derives; eapply (derives_alt T 170); [reflexivity | reflexivity |]; apply (class_iff _ _ _ _ class_ascii); eauto |]. split; [now constructor |].
    cbn [char_of]. rewrite Hc. now apply checked_small.
  - destruct (class_complete _ _ _ o class_oct) as (x & Hx & Ex & Cx); [now apply oct_iff |]. pose proof Hh as Hh0. apply hex_complete in Hh as (y & Hy & Ey & Cy).
    assert (E : yield (NAlt 1 (NCat [NLit [92%N]; NAlt 1 (NCat [NLit (lit "x"); x; y])])) = [92%N; 120%N; o; h]) by (cbn [yield flat_map]; now rewrite Ex, Ey).
    exists (NAlt 1 (NCat [NLit [92%N]; NAlt 1 (NCat [NLit (lit "x"); x; y])])). split; [| exact E]. split.
    + apply escape_derives. eapply (derives_alt T 170); [reflexivity | reflexivity |]. eapply (derives_cat T 146); [reflexivity |]. constructor; [now eapply derives_lit |]. repeat (constructor; [assumption |]). constructor.
    + rewrite E. split; [apply text_byte; assumption |]. cbn [char_of]. rewrite Cx, Cy. apply hex_char_ok; [discriminate | cbn; lia |]. constructor; [unfold hex_digit; lia | now constructor].
  - destruct (proj2 (up_to_6 ds)) as (x & Hx & Ex); [auto |].
    assert (E : yield (NAlt 1 (NCat [NLit [92%N]; NAlt 2 (NCat [NLit (lit "u{"); x; NLit (lit "}")])])) = [92%N; 117%N; 123%N] ++ ds ++ [125%N]) by (cbn [yield flat_map]; rewrite Ex, app_nil_r; reflexivity).
    exists (NAlt 1 (NCat [NLit [92%N]; NAlt 2 (NCat [NLit (lit "u{"); x; NLit (lit "}")])])). split; [| exact E]. split.
    + apply escape_derives. eapply (derives_alt T 170); [reflexivity | reflexivity |]. eapply (derives_cat T 169); [reflexivity |]. constructor; [now eapply derives_lit |]. constructor; [exact Hx |].
      constructor; [now eapply derives_lit | constructor].
    + rewrite E. split; [apply text_unicode; assumption |]. cbn [char_of]. rewrite Ex. now apply hex_char_ok.
Qed.
Lemma ids_contents : plus_ids T 112 176 172 175 173 174. Proof. repeat split; repeat eexists; reflexivity. Qed.
Definition contents (t : tree) (v : list N) : Prop := exists y l, t = plus_tree y l /\ Forall2 char_tree v (y :: l).
Lemma contents_derives t v : contents t v -> derives T 112 t.
Proof.
  intros (y & l & -> & H). apply (plus_iff T _ _ _ _ _ _ _ ids_contents). exists y, l. split; [reflexivity |]. revert H. generalize (y :: l) as m. intros m H. induction H as [| ? ? ? ? [Hd _]]; auto.
Qed.
Lemma contents_sound t : derives T 112 t -> exists v, contents t v.
Proof.
  intros H. apply (plus_iff T _ _ _ _ _ _ _ ids_contents) in H as (y & l & -> & H). enough (exists v, Forall2 char_tree v (y :: l)) as [v Hv] by (exists v, y, l; auto).
  induction H as [| x m Hx _ [v Hv]]; [exists []; constructor |]. apply char_sound in Hx as [n Hn]. exists (n :: v). now constructor.
Qed.
Lemma contents_text t v : contents t v -> v <> [] /\ chars_text v (yield t).
Proof.
  intros (y & l & -> & H). rewrite plus_yield. split; [now inversion H |]. revert H. generalize (y :: l) as m. intros m H. induction H as [| n x v m (_ & Hn & _) _ IH]; cbn [flat_map]; now constructor.
Qed.
Lemma contents_complete v w : v <> [] -> chars_text v w -> exists t, contents t v /\ yield t = w.
Proof.
  intros Hv H. assert (exists m, Forall2 char_tree v m /\ flat_map yield m = w) as (m & Hm & E).
  { clear Hv. induction H as [| c u v w Hc _ (m & Hm & E)]; [exists []; split; [constructor | reflexivity] |]. apply char_complete in Hc as (t & Ht & Et). exists (t :: m). split; [now constructor |].
    cbn [flat_map]. now rewrite Et, E. }
  destruct Hm as [| n y v m Hy Hm]; [now elim Hv |]. exists (plus_tree y m). split; [exists y, m; split; [reflexivity | now constructor] | now rewrite plus_yield].
Qed.
(** The iterator over the characters. *)
Lemma drain_plus l : forall y fuel, tree_size (into_iter (plus_tree y l)) <= fuel -> drain opt11_next fuel (into_iter (plus_tree y l)) = y :: l.
Proof.
  induction l as [| z l IH]; intros y fuel Hf; (destruct fuel as [| fuel]; [cbn in Hf; lia |]); cbn [plus_tree drain into_iter opt11_next].
  - destruct fuel; reflexivity.
  - f_equal. apply IH. cbn [into_iter plus_tree tree_size] in Hf |- *. lia.
Qed.
Lemma items_contents y l : items opt11_next (into_iter (plus_tree y l)) = y :: l.
Proof. unfold items. now apply drain_plus. Qed.
Lemma chars_of_checked v m : Forall2 char_tree v m -> (Forall scalar v -> chars_of m = Some v) /\ (forall s, chars_of m = Some s -> s = v /\ Forall scalar v).
Proof.
  intros H. induction H as [| n t v m (_ & _ & Hn1 & Hn2) _ [IH1 IH2]]; cbn [chars_of].
  - split; [reflexivity |]. intros s [= <-]. split; [reflexivity | constructor].
  - split.
    + intros Hs. apply Forall_cons_iff in Hs as [Hs1 Hs2]. now rewrite Hn1, IH1.
    + intros s. destruct (char_of t) as [c |]; [| discriminate]. destruct (chars_of m) as [s' |]; [| discriminate]. intros [= <-].
      destruct (Hn2 c eq_refl) as [-> Hc]. destruct (IH2 s' eq_refl) as [-> Hv]. split; [reflexivity | now constructor].
Qed.
