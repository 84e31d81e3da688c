(** * NameFacts: when generated names are distinct. *)
From Verif Require Export EmitFacts.
From Coq Require Import DecimalNat DecimalFacts.
From Coq Require Import String.
From Coq Require Import List.

(** A decimal digit. *)
Definition digit (c : char) : Prop := (48 <= c <= 57)%N.

Lemma uint_chars_digits d : Forall digit (uint_chars d).
Proof. induction d; cbn; constructor; auto; unfold digit; lia. Qed.
Lemma uint_chars_inj d : forall d', uint_chars d = uint_chars d' -> d = d'.
Proof. induction d; intros [] E; cbn in E; try discriminate; auto; injection E as E; f_equal; auto. Qed.
Lemma dec_inj n m : dec n = dec m -> n = m.
Proof. intros H. apply uint_chars_inj in H. apply DecimalNat.Unsigned.to_uint_inj. exact H. Qed.
Lemma dec_digits n : Forall digit (dec n).
Proof. apply uint_chars_digits. Qed.
Lemma dec_nonempty n : dec n <> [].
Proof.
  unfold dec. intros H. destruct (Nat.to_uint n) eqn:E; try discriminate.
  pose proof E as E0. apply (f_equal Nat.of_uint) in E. rewrite DecimalNat.Unsigned.of_to in E. cbn in E. subst n. discriminate E0.
Qed.

(** A name whose last character is not a digit. *)
Definition no_digit_end (s : rstr) : Prop := forall u c, s = u ++ [c] -> ~ digit c.

Lemma split_eq p q x y : no_digit_end p -> no_digit_end q -> Forall digit x -> Forall digit y -> p ++ x = q ++ y -> p = q /\ x = y.
Proof.
  revert q. induction p as [|c p IH]; intros q Hp Hq Hx Hy E.
  - destruct q as [|c q]; [auto|]. exfalso. cbn in E. destruct (exists_last (l := c :: q)) as (u & d & Eu); [discriminate|].
    apply (Hq u d Eu). rewrite Forall_forall in Hx. apply Hx. rewrite E. change (In d ((c :: q) ++ y)). rewrite Eu. apply in_app_iff. left. apply in_app_iff. right. left. reflexivity.
  - destruct q as [|d q].
    + exfalso. destruct (exists_last (l := c :: p)) as (u & d & Eu); [discriminate|].
      apply (Hp u d Eu). rewrite Forall_forall in Hy. apply Hy. cbn in E. rewrite <- E. change (In d ((c :: p) ++ x)). rewrite Eu. apply in_app_iff. left. apply in_app_iff. right. left. reflexivity.
    + cbn in E. injection E as <- E. destruct (IH q) as [-> ->]; auto.
      * intros u e Eu. apply (Hp (c :: u) e). rewrite Eu. reflexivity.
      * intros u e Eu. apply (Hq (c :: u) e). rewrite Eu. reflexivity.
Qed.
Lemma numbered_inj p q n m : no_digit_end p -> no_digit_end q -> p ++ dec n = q ++ dec m -> p = q /\ n = m.
Proof.
  intros Hp Hq E. destruct (split_eq p q (dec n) (dec m) Hp Hq (dec_digits _) (dec_digits _) E) as [-> H]. split; [reflexivity|apply dec_inj; exact H].
Qed.
(** A numbered name ends in a digit. *)
Lemma numbered_end p n q : p ++ dec n = q -> ~ no_digit_end q.
Proof.
  intros E H. destruct (exists_last (dec_nonempty n)) as (u & c & Eu). rewrite Eu, app_assoc in E.
  apply (H (p ++ u) c); [symmetry; exact E|]. pose proof (dec_digits n) as Hd. rewrite Eu in Hd. apply Forall_app in Hd as [_ Hd]. inversion Hd; assumption.
Qed.

(** ** Counters *)
Definition cnt (k : rstr) (m : list (rstr * nat)) : nat := match map_get rstr_eqb k m with Some n => n | None => 0 end.
Lemma bump_spec k m : forall c m', bump k m = (c, m') -> c = S (cnt k m) /\ cnt k m' = c /\ forall k', k' <> k -> cnt k' m' = cnt k' m.
Proof.
  induction m as [|[k0 n] m IH]; intros c m' E; cbn in E.
  - injection E as <- <-. unfold cnt. cbn. rewrite rstr_eqb_refl. split; [reflexivity|]. split; [reflexivity|].
    intros k' Hk. destruct (rstr_eqb k' k) eqn:E; [apply rstr_eqb_eq in E; contradiction|reflexivity].
  - destruct (rstr_eqb k k0) eqn:Ek.
    + injection E as <- <-. apply rstr_eqb_eq in Ek. subst k0. unfold cnt. cbn. rewrite rstr_eqb_refl. split; [reflexivity|]. split; [reflexivity|].
      intros k' Hk. destruct (rstr_eqb k' k) eqn:E; [apply rstr_eqb_eq in E; contradiction|reflexivity].
    + destruct (bump k m) as [c0 m0] eqn:Eb. injection E as <- <-. destruct (IH c0 m0 eq_refl) as (H1 & H2 & H3).
      unfold cnt in *. cbn. rewrite Ek. split; [exact H1|]. split; [exact H2|].
      intros k' Hk. destruct (rstr_eqb k' k0); [reflexivity|]. apply H3. exact Hk.
Qed.

(** ** Fields and variants *)
Definition plain (default c : rstr) : Prop := no_digit_end c /\ c <> default.
Definition names_plain (conv : rstr -> option rstr) (default : rstr) (l : list (option name)) : Prop :=
  forall n c, In (Some n) l -> conv (name_text n) = Some c -> plain default c.

Lemma names_plain_tl conv default o l : names_plain conv default (o :: l) -> names_plain conv default l.
Proof. intros H n c Hn. apply H. right. exact Hn. Qed.

Lemma name_parts_forms conv default l : forall k m parts, name_parts conv default k m l = Some parts ->
  forall s, In s parts -> (exists j, k <= j /\ s = default ++ dec (j + 1)) \/
    (exists n c q, In (Some n) l /\ conv (name_text n) = Some c /\ s = c ++ dec q /\ cnt c m < q).
Proof.
  induction l as [|o l IH]; intros k m parts E s Hs; cbn in E; [injection E as <-; contradiction|].
  destruct o as [n|].
  - destruct (conv (name_text n)) as [c|] eqn:Ec; [|discriminate]. destruct (bump c m) as [q m'] eqn:Eb.
    destruct (name_parts conv default (S k) m' l) as [ps|] eqn:Ep; [|discriminate]. injection E as <-.
    destruct (bump_spec _ _ _ _ Eb) as (B1 & B2 & B3). destruct Hs as [<-|Hs].
    + right. exists n, c, q. split; [left; reflexivity|]. split; [exact Ec|]. split; [reflexivity|lia].
    + destruct (IH _ _ _ Ep s Hs) as [(j & Hj & ->)|(n' & c' & q' & H1 & H2 & H3 & H4)]; [left; exists j; split; [lia|reflexivity]|].
      right. exists n', c', q'. split; [right; exact H1|]. split; [exact H2|]. split; [exact H3|].
      destruct (rstr_eqb c' c) eqn:Ee.
      * apply rstr_eqb_eq in Ee. subst c'. lia.
      * rewrite <- B3; [exact H4|]. intros ->. rewrite rstr_eqb_refl in Ee. discriminate.
  - destruct (name_parts conv default (S k) m l) as [ps|] eqn:Ep; [|discriminate]. injection E as <-.
    destruct Hs as [<-|Hs]; [left; exists k; split; [lia|reflexivity]|].
    destruct (IH _ _ _ Ep s Hs) as [(j & Hj & ->)|(n' & c' & q' & H1 & H2 & H3 & H4)]; [left; exists j; split; [lia|reflexivity]|].
    right. exists n', c', q'. split; [right; exact H1|]. auto.
Qed.

Lemma name_parts_nodup conv default l : no_digit_end default -> names_plain conv default l ->
  forall k m parts, name_parts conv default k m l = Some parts -> NoDup parts.
Proof.
  intros Hd. induction l as [|o l IH]; intros Hp k m parts E; cbn in E; [injection E as <-; constructor|].
  pose proof (names_plain_tl _ _ _ _ Hp) as Hp'. destruct o as [n|].
  - destruct (conv (name_text n)) as [c|] eqn:Ec; [|discriminate]. destruct (bump c m) as [q m'] eqn:Eb.
    destruct (name_parts conv default (S k) m' l) as [ps|] eqn:Ep; [|discriminate]. injection E as <-.
    destruct (bump_spec _ _ _ _ Eb) as (B1 & B2 & B3). constructor; [|eapply IH; eauto].
    destruct (Hp n c (or_introl eq_refl) Ec) as [Hc1 Hc2]. intros Hin.
    destruct (name_parts_forms _ _ _ _ _ _ Ep _ Hin) as [(j & Hj & Ej)|(n' & c' & q' & H1 & H2 & H3 & H4)].
    + apply numbered_inj in Ej as [Ej _]; auto.
    + destruct (Hp n' c' (or_intror H1) H2) as [Hc1' _]. apply numbered_inj in H3 as [-> <-]; auto. lia.
  - destruct (name_parts conv default (S k) m l) as [ps|] eqn:Ep; [|discriminate]. injection E as <-.
    constructor; [|eapply IH; eauto]. intros Hin.
    destruct (name_parts_forms _ _ _ _ _ _ Ep _ Hin) as [(j & Hj & Ej)|(n' & c' & q' & H1 & H2 & H3 & H4)].
    + apply numbered_inj in Ej as [_ Ej]; auto. lia.
    + destruct (Hp n' c' (or_intror H1) H2) as [Hc1' Hc2']. apply numbered_inj in H3 as [H3 _]; auto.
Qed.

(** ** Types *)
Definition prefixes : list rstr := [lit "Lit"; lit "Cat"; lit "Alt"; lit "Fix"].
Lemma prefixes_end p : In p prefixes -> no_digit_end p.
Proof.
  assert (G : forall x y z : char, ~ digit z -> no_digit_end [x; y; z]).
  { intros x y z Hz [|u1 [|u2 [|u3 [|u4 u]]]] c E; try discriminate. injection E as _ _ ->. exact Hz. }
  intros [<-|[<-|[<-|[<-|[]]]]]; apply G; unfold digit; cbn; lia.
Qed.
Definition type_plain (c : rstr) : Prop := no_digit_end c /\ ~ In c prefixes.

Definition named_at (d : list entry) (i : nat) (s : rstr) : Prop := option_map en_name (nth_error d i) = Some (TnIdent s).

Record ninv (b : bst) : Prop := Ninv {
  n_dist : forall i j s, named_at (data b) i s -> named_at (data b) j s -> i = j;
  n_form : forall i s, named_at (data b) i s -> (exists p, In p prefixes /\ s = p ++ dec (i + 1)) \/
             (exists c q, type_plain c /\ s = c ++ dec q /\ q <= cnt c (name_map b)) }.

Lemma named_push d en i s : named_at (d ++ [en]) i s -> named_at d i s \/ (i = length d /\ en_name en = TnIdent s).
Proof.
  unfold named_at. destruct (Nat.lt_ge_cases i (length d)) as [Hi|Hi].
  - rewrite nth_error_app1 by exact Hi. auto.
  - rewrite nth_error_app2 by exact Hi. destruct (i - length d) as [|[|k]] eqn:E; cbn; try discriminate.
    intros H. injection H as H. right. split; [lia|exact H].
Qed.
Lemma named_lt d i s : named_at d i s -> i < length d.
Proof. unfold named_at. intros H. apply nth_error_Some. destruct (nth_error d i); discriminate. Qed.

Section Names.
  Variable cs : casing.

  Definition oname_plain (o : option name) : Prop := forall n c, o = Some n -> camel cs (name_text n) = Some c -> type_plain c.
  Definition names_type_plain (e : texpr) : Prop := forall n c, In n (t_names e) -> camel cs (name_text n) = Some c -> type_plain c.

  (** A new type. *)
  Lemma ninv_new b prefix o id ident b1 : ninv b -> oname_plain o -> In prefix prefixes ->
    new_type_name cs prefix o b = Some (id, ident, b1) ->
    forall b' en, data b' = data b ++ [en] -> name_map b' = name_map b1 -> en_name en = TnIdent ident -> ninv b'.
  Proof.
    intros [Hd Hf] Ho Hp E b' en Eb Em En.
    assert (Hnew : (forall i s, named_at (data b) i s -> s <> ident) /\
      ((exists p, In p prefixes /\ ident = p ++ dec (length (data b) + 1)) \/
       (exists c q, type_plain c /\ ident = c ++ dec q /\ q <= cnt c (name_map b1))) /\
      (forall c, cnt c (name_map b) <= cnt c (name_map b1))).
    { unfold new_type_name in E. destruct o as [n|].
      - destruct (camel cs (name_text n)) as [c|] eqn:Ec; [|discriminate]. destruct (bump c (name_map b)) as [q m] eqn:Eq.
        injection E as <- <- <-. destruct (bump_spec _ _ _ _ Eq) as (B1 & B2 & B3). destruct (Ho n c eq_refl Ec) as [P1 P2].
        split; [|split].
        + intros i s Hi Es. destruct (Hf i s Hi) as [(p & Hpp & ->)|(c' & q' & [P1' P2'] & -> & Hq)].
          * apply numbered_inj in Es as [-> _]; auto. apply prefixes_end. exact Hpp.
          * apply numbered_inj in Es as [-> ->]; auto. lia.
        + right. exists c, q. split; [split; assumption|]. split; [reflexivity|]. cbn. lia.
        + intros c'. cbn. destruct (rstr_eqb c' c) eqn:Ee; [apply rstr_eqb_eq in Ee; subst; lia|].
          rewrite B3; [lia|]. intros ->. rewrite rstr_eqb_refl in Ee. discriminate.
      - injection E as <- <- <-. split; [|split].
        + intros i s Hi Es. pose proof (named_lt _ _ _ Hi) as Hlt. destruct (Hf i s Hi) as [(p & Hpp & ->)|(c' & q' & [P1' P2'] & -> & Hq)].
          * apply numbered_inj in Es as [_ Es]; [lia| |]; apply prefixes_end; assumption.
          * apply numbered_inj in Es as [-> _]; auto. apply prefixes_end. exact Hp.
        + left. exists prefix. auto.
        + auto. }
    destruct Hnew as (N1 & N2 & N3). split.
    - intros i j s Hi Hj. rewrite Eb in Hi, Hj. apply named_push in Hi as [Hi|[-> Hi]], Hj as [Hj|[-> Hj]].
      + eapply Hd; eauto.
      + rewrite En in Hj. injection Hj as <-. exfalso. eapply N1; eauto.
      + rewrite En in Hi. injection Hi as <-. exfalso. eapply N1; eauto.
      + reflexivity.
    - intros i s Hi. rewrite Eb in Hi. apply named_push in Hi as [Hi|[-> Hi]].
      + destruct (Hf i s Hi) as [H|(c & q & P & E' & Hq)]; [left; exact H|right]. exists c, q. split; [exact P|]. split; [exact E'|].
        rewrite Em. specialize (N3 c). lia.
      + rewrite En in Hi. injection Hi as <-. rewrite Em. exact N2.
  Qed.
  (** A type without a name of its own. *)
  Lemma ninv_other b b' en : ninv b -> data b' = data b ++ [en] -> name_map b' = name_map b -> (forall s, en_name en <> TnIdent s) -> ninv b'.
  Proof.
    intros [Hd Hf] Eb Em En. split.
    - intros i j s Hi Hj. rewrite Eb in Hi, Hj. apply named_push in Hi as [Hi|[-> Hi]], Hj as [Hj|[-> Hj]]; try (exfalso; eapply En; eassumption).
      eapply Hd; eauto.
    - intros i s Hi. rewrite Eb in Hi. apply named_push in Hi as [Hi|[-> Hi]]; [|exfalso; eapply En; eassumption]. rewrite Em. auto.
  Qed.
  (** Only names matter. *)
  Lemma ninv_same b b' : ninv b -> (forall i, option_map en_name (nth_error (data b') i) = option_map en_name (nth_error (data b) i)) ->
    name_map b' = name_map b -> ninv b'.
  Proof.
    intros [Hd Hf] E Em. split.
    - intros i j s Hi Hj. unfold named_at in *. rewrite E in Hi, Hj. eapply Hd; eauto.
    - intros i s Hi. unfold named_at in *. rewrite E in Hi. rewrite Em. auto.
  Qed.

  Lemma t_name_in e n : t_name e = Some n -> In n (t_names e).
  Proof. intros H. destruct e; cbn [t_names]; rewrite H; left; reflexivity. Qed.
  Lemma name_in_names a l : forall n, a_name a = Some n -> In n ((match a_name a with Some n => [n] | None => [] end) ++ l).
  Proof. intros n ->. left. reflexivity. Qed.

  Definition nspec (e : texpr) : Prop := forall b b' id, names_type_plain e -> ninv b -> gen cs e b = Some (b', id) -> ninv b'.
  Lemma gen_list_names l : Forall nspec l -> forall b b' ids, Forall names_type_plain l -> ninv b -> gen_list (gen cs) l b = Some (b', ids) -> ninv b'.
  Proof.
    induction 1 as [|e l He Hl IH]; intros b b' ids Hn I E; cbn [gen_list] in E.
    - injection E as <- <-. exact I.
    - inversion Hn; subst. destruct (gen cs e b) as [[b1 id]|] eqn:E1; [|discriminate].
      destruct (gen_list (gen cs) l b1) as [[b2 ids2]|] eqn:E2; [|discriminate]. injection E as <- <-. eapply IH; [| |exact E2]; eauto.
  Qed.
  Lemma names_list a l : (forall n c, In n (match a_name a with Some n => [n] | None => [] end ++ flat_map t_names l) -> camel cs (name_text n) = Some c -> type_plain c) ->
    oname_plain (a_name a) /\ Forall names_type_plain l.
  Proof.
    intros H. split.
    - intros n c En. apply H. rewrite En. left. reflexivity.
    - rewrite Forall_forall. intros x Hx n c Hn. apply H. apply in_app_iff. right. apply in_flat_map. eauto.
  Qed.

  Lemma in_prefixes k p : nth_error prefixes k = Some p -> In p prefixes.
  Proof. apply nth_error_In. Qed.

  Theorem gen_names e : nspec e.
  Proof.
    induction e using texpr_ind'; intros b b' id Hn I E.
    - cbn in E. unfold gen_epsilon in E. destruct (eps_id b); injection E as <- <-; [exact I|]. eapply ninv_other; [exact I|reflexivity|reflexivity|discriminate].
    - cbn in E. unfold gen_literal in E. destruct (map_get rstr_eqb s (lit_map b)); [injection E as <- <-; exact I|].
      assert (Ho : oname_plain (a_name a)) by (intros n c En; apply Hn, t_name_in; exact En).
      destruct (new_type_name _ _ _ _) as [[[x ident] b1]|] eqn:En; [|discriminate].
      pose proof (ninv_new b (lit "Lit") _ _ _ _ I Ho (in_prefixes 0 _ eq_refl) En) as Hnew.
      apply new_type_name_inv in En as (-> & nm & ->).
      destruct s as [|c [|c' s]]; injection E as <- <-; (eapply Hnew; [reflexivity|reflexivity|reflexivity]).
    - rewrite gen_cat_eq in E. destruct (gen_list (gen cs) _ b) as [[b1 ids]|] eqn:El; [|discriminate].
      destruct (names_list a l Hn) as [Ho Hl]. pose proof (gen_list_names _ H _ _ _ Hl I El) as I1. clear El.
      unfold gen_cat in E. destruct (map_get nats_eqb ids (cat_map b1)); [injection E as <- <-; exact I1|].
      destruct (new_type_name _ _ _ _) as [[[x ident] b2]|] eqn:En; [|discriminate].
      pose proof (ninv_new b1 (lit "Cat") _ _ _ _ I1 Ho (in_prefixes 1 _ eq_refl) En) as Hnew.
      apply new_type_name_inv in En as (-> & nm & ->). destruct (ids_ok _ _); [|discriminate].
      destruct (name_parts _ _ _ _ _) as [parts|]; [|discriminate]. injection E as <- <-. eapply Hnew; reflexivity.
    - rewrite gen_alt_eq in E. destruct (gen_list (gen cs) _ b) as [[b1 ids]|] eqn:El; [|discriminate].
      destruct (names_list a l Hn) as [Ho Hl]. pose proof (gen_list_names _ H _ _ _ Hl I El) as I1. clear El.
      unfold gen_alt in E. destruct (map_get nats_eqb ids (alt_map b1)); [injection E as <- <-; exact I1|].
      destruct (new_type_name _ _ _ _) as [[[x ident] b2]|] eqn:En; [|discriminate].
      pose proof (ninv_new b1 (lit "Alt") _ _ _ _ I1 Ho (in_prefixes 2 _ eq_refl) En) as Hnew.
      apply new_type_name_inv in En as (-> & nm & ->). destruct (ids_ok _ _); [|discriminate].
      destruct (name_parts _ _ _ _ _) as [parts|]; [|discriminate]. injection E as <- <-.
      destruct (forallb _ ids); (eapply Hnew; reflexivity).
    - cbn [gen] in E. destruct (map_get texpr_eqb e (fix_map b)); [injection E as <- <-; exact I|].
      assert (Ho : oname_plain (a_name a)) by (intros n c En; apply Hn, t_name_in; exact En).
      destruct (new_type_name _ _ _ _) as [[[x ident] b2]|] eqn:En; [|discriminate].
      pose proof (ninv_new b (lit "Fix") _ _ _ _ I Ho (in_prefixes 3 _ eq_refl) En) as Hnew.
      apply new_type_name_inv in En as (-> & nm & ->). cbv zeta in E.
      destruct (gen cs e _) as [[b4 j]|] eqn:E4; [|discriminate].
      assert (I4 : ninv b4).
      { eapply IHe; [| |exact E4].
        - intros n c Hin. apply Hn. cbn [t_names]. apply in_app_iff. auto.
        - eapply Hnew; reflexivity. }
      cbn [data set_context] in E. destruct (nth_error (data b4) j); [|discriminate]. destruct (Nat.ltb _ _); [|discriminate].
      injection E as <- <-. eapply ninv_same; [exact I4| |reflexivity]. intros i. cbn. rewrite update_nth.
      destruct (Nat.eqb i (length (data b))); [destruct (nth_error (data b4) i); reflexivity|reflexivity].
    - cbn [gen] in E. unfold gen_variable in E. destruct (nth_error (context b) i) as [f|]; [|discriminate].
      destruct (map_get Nat.eqb f (var_map b)); [injection E as <- <-; exact I|].
      destruct (nth_error (data b) f); [|discriminate]. injection E as <- <-. eapply ninv_other; [exact I|reflexivity|reflexivity|discriminate].
  Qed.

  Corollary generate_names e b id : names_type_plain e -> generate cs e = Some (b, id) -> ninv b.
  Proof.
    intros Hn E. eapply gen_names; [exact Hn| |exact E]. split; unfold named_at; cbn; intros [|i]; discriminate.
  Qed.

  (** Every identifier in the table is a word followed by a number. *)
  Definition numbered (d : list entry) : Prop := forall i s, named_at d i s -> exists p n, s = p ++ dec n.
  Lemma new_type_numbered prefix o b id ident b1 : new_type_name cs prefix o b = Some (id, ident, b1) -> exists p n, ident = p ++ dec n.
  Proof.
    unfold new_type_name. destruct o as [n|]; [|intros E; injection E as <- <- <-; eauto].
    destruct (camel cs _) as [c|]; [|discriminate]. destruct (bump _ _) as [q m]. intros E. injection E as <- <- <-. eauto.
  Qed.
  Lemma numbered_push d en : numbered d -> (forall s, en_name en = TnIdent s -> exists p n, s = p ++ dec n) -> numbered (d ++ [en]).
  Proof. intros H He i s Hi. apply named_push in Hi as [Hi|[-> Hi]]; eauto. Qed.
  Definition uspec (e : texpr) : Prop := forall b b' id, numbered (data b) -> gen cs e b = Some (b', id) -> numbered (data b').
  Lemma gen_list_numbered l : Forall uspec l -> forall b b' ids, numbered (data b) -> gen_list (gen cs) l b = Some (b', ids) -> numbered (data b').
  Proof.
    induction 1 as [|e l He Hl IH]; intros b b' ids I E; cbn [gen_list] in E.
    - injection E as <- <-. exact I.
    - destruct (gen cs e b) as [[b1 id]|] eqn:E1; [|discriminate].
      destruct (gen_list (gen cs) l b1) as [[b2 ids2]|] eqn:E2; [|discriminate]. injection E as <- <-. eapply IH; [|exact E2]; eauto.
  Qed.
  Theorem gen_numbered e : uspec e.
  Proof.
    induction e using texpr_ind'; intros b b' id I E.
    - cbn in E. unfold gen_epsilon in E. destruct (eps_id b); injection E as <- <-; [exact I|]. apply numbered_push; [exact I|discriminate].
    - cbn in E. unfold gen_literal in E. destruct (map_get rstr_eqb s (lit_map b)); [injection E as <- <-; exact I|].
      destruct (new_type_name _ _ _ _) as [[[x ident] b1]|] eqn:En; [|discriminate].
      pose proof (new_type_numbered _ _ _ _ _ _ En) as Hnew. apply new_type_name_inv in En as (-> & nm & ->).
      destruct s as [|c [|c' s]]; injection E as <- <-; (apply numbered_push; [exact I|]; cbn; intros s0 E0; injection E0 as <-; exact Hnew).
    - rewrite gen_cat_eq in E. destruct (gen_list (gen cs) _ b) as [[b1 ids]|] eqn:El; [|discriminate].
      pose proof (gen_list_numbered _ H _ _ _ I El) as I1. clear El.
      unfold gen_cat in E. destruct (map_get nats_eqb ids (cat_map b1)); [injection E as <- <-; exact I1|].
      destruct (new_type_name _ _ _ _) as [[[x ident] b2]|] eqn:En; [|discriminate].
      pose proof (new_type_numbered _ _ _ _ _ _ En) as Hnew. apply new_type_name_inv in En as (-> & nm & ->). destruct (ids_ok _ _); [|discriminate].
      destruct (name_parts _ _ _ _ _) as [parts|]; [|discriminate]. injection E as <- <-. apply numbered_push; [exact I1|]; cbn; intros s0 E0; injection E0 as <-; exact Hnew.
    - rewrite gen_alt_eq in E. destruct (gen_list (gen cs) _ b) as [[b1 ids]|] eqn:El; [|discriminate].
      pose proof (gen_list_numbered _ H _ _ _ I El) as I1. clear El.
      unfold gen_alt in E. destruct (map_get nats_eqb ids (alt_map b1)); [injection E as <- <-; exact I1|].
      destruct (new_type_name _ _ _ _) as [[[x ident] b2]|] eqn:En; [|discriminate].
      pose proof (new_type_numbered _ _ _ _ _ _ En) as Hnew. apply new_type_name_inv in En as (-> & nm & ->). destruct (ids_ok _ _); [|discriminate].
      destruct (name_parts _ _ _ _ _) as [parts|]; [|discriminate]. injection E as <- <-.
      destruct (forallb _ ids); (apply numbered_push; [exact I1|]; cbn; intros s0 E0; injection E0 as <-; exact Hnew).
    - cbn [gen] in E. destruct (map_get texpr_eqb e (fix_map b)); [injection E as <- <-; exact I|].
      destruct (new_type_name _ _ _ _) as [[[x ident] b2]|] eqn:En; [|discriminate].
      pose proof (new_type_numbered _ _ _ _ _ _ En) as Hnew. apply new_type_name_inv in En as (-> & nm & ->). cbv zeta in E.
      destruct (gen cs e _) as [[b4 j]|] eqn:E4; [|discriminate].
      assert (I4 : numbered (data b4)).
      { eapply IHe; [|exact E4]. apply numbered_push; [exact I|]; cbn; intros s0 E0; injection E0 as <-; exact Hnew. }
      cbn [data set_context] in E. destruct (nth_error (data b4) j); [|discriminate]. destruct (Nat.ltb _ _); [|discriminate].
      injection E as <- <-. intros i s Hi. apply (I4 i s). unfold named_at in *. cbn in Hi. rewrite update_nth in Hi.
      destruct (Nat.eqb i (length (data b))); [destruct (nth_error (data b4) i); exact Hi|exact Hi].
    - cbn [gen] in E. unfold gen_variable in E. destruct (nth_error (context b) i) as [f|]; [|discriminate].
      destruct (map_get Nat.eqb f (var_map b)); [injection E as <- <-; exact I|].
      destruct (nth_error (data b) f); [|discriminate]. injection E as <- <-. apply numbered_push; [exact I|discriminate].
  Qed.

  (** ** Fields and variants of the table *)
  Definition parts_ok (d : table) : Prop := forall id,
    match def_of d id with
    | Some (DCat _ parts ids) => NoDup parts /\ length parts = length ids
    | Some (DAlt parts ids _ _ _ _) => NoDup parts /\ length parts = length ids
    | _ => True
    end.
  Definition names_part_plain (e : texpr) : Prop := forall n c, In n (t_names e) ->
    (snake cs (name_text n) = Some c -> plain (lit "part") c) /\ (camel cs (name_text n) = Some c -> plain (lit "Branch") c).
  Definition pspec (e : texpr) : Prop := forall b b' id, names_part_plain e -> parts_ok (data b) -> gen cs e b = Some (b', id) -> parts_ok (data b').
  Lemma parts_push d en : parts_ok d -> match en_def en with
    | DCat _ parts ids => NoDup parts /\ length parts = length ids
    | DAlt parts ids _ _ _ _ => NoDup parts /\ length parts = length ids
    | _ => True end -> parts_ok (d ++ [en]).
  Proof.
    intros H He id. destruct (Nat.lt_ge_cases id (length d)) as [Hi|Hi].
    - rewrite def_app by exact Hi. apply H.
    - unfold def_of. rewrite nth_error_app2 by exact Hi. destruct (id - length d) as [|[|k]]; cbn; auto.
  Qed.
  Lemma name_parts_length conv default l : forall k m parts, name_parts conv default k m l = Some parts -> length parts = length l.
  Proof.
    induction l as [|[n|] l IH]; intros k m parts E; cbn in E.
    - injection E as <-. reflexivity.
    - destruct (conv _) as [c|]; [|discriminate]. destruct (bump c m) as [q m']. destruct (name_parts conv default (S k) m' l) eqn:Ep; [|discriminate].
      injection E as <-. cbn. f_equal. eauto.
    - destruct (name_parts conv default (S k) m l) eqn:Ep; [|discriminate]. injection E as <-. cbn. f_equal. eauto.
  Qed.
  Lemma gen_list_length l : forall b b' ids, gen_list (gen cs) l b = Some (b', ids) -> length ids = length l.
  Proof.
    induction l as [|e l IH]; intros b b' ids E; cbn [gen_list] in E; [injection E as <- <-; reflexivity|].
    destruct (gen cs e b) as [[b1 id]|]; [|discriminate]. destruct (gen_list (gen cs) l b1) as [[b2 ids2]|] eqn:E2; [|discriminate].
    injection E as <- <-. cbn. f_equal. eauto.
  Qed.
  Lemma gen_list_parts l : Forall pspec l -> forall b b' ids, Forall names_part_plain l -> parts_ok (data b) -> gen_list (gen cs) l b = Some (b', ids) -> parts_ok (data b').
  Proof.
    induction 1 as [|e l He Hl IH]; intros b b' ids Hn I E; cbn [gen_list] in E.
    - injection E as <- <-. exact I.
    - inversion Hn; subst. destruct (gen cs e b) as [[b1 id]|] eqn:E1; [|discriminate].
      destruct (gen_list (gen cs) l b1) as [[b2 ids2]|] eqn:E2; [|discriminate]. injection E as <- <-. eapply IH; [| |exact E2]; eauto.
  Qed.
  Lemma part_end : no_digit_end (lit "part") /\ no_digit_end (lit "Branch").
  Proof.
    split; intros u c E; assert (Hl : last (u ++ [c]) 0%N = c) by apply last_last; rewrite <- E in Hl; cbn in Hl; subst c; unfold digit; lia.
  Qed.
  Lemma parts_list l : (forall n c, In n (flat_map t_names l) ->
      (snake cs (name_text n) = Some c -> plain (lit "part") c) /\ (camel cs (name_text n) = Some c -> plain (lit "Branch") c)) ->
    Forall names_part_plain l /\ names_plain (snake cs) (lit "part") (map t_name l) /\ names_plain (camel cs) (lit "Branch") (map t_name l).
  Proof.
    intros H. assert (G : forall n, In (Some n) (map t_name l) -> In n (flat_map t_names l)).
    { intros n Hin. apply in_map_iff in Hin as (x & Ex & Hx). apply in_flat_map. exists x. split; [exact Hx|]. apply t_name_in. exact Ex. }
    split; [|split].
    - rewrite Forall_forall. intros x Hx n c Hn. apply H. apply in_flat_map. eauto.
    - intros n c Hn. apply H. auto.
    - intros n c Hn. apply H. auto.
  Qed.
  Theorem gen_parts e : pspec e.
  Proof.
    induction e using texpr_ind'; intros b b' id Hn I E.
    - cbn in E. unfold gen_epsilon in E. destruct (eps_id b); injection E as <- <-; [exact I|]. apply parts_push; [exact I|exact Logic.I].
    - cbn in E. unfold gen_literal in E. destruct (map_get rstr_eqb s (lit_map b)); [injection E as <- <-; exact I|].
      destruct (new_type_name _ _ _ _) as [[[x ident] b1]|] eqn:En; [|discriminate]. apply new_type_name_inv in En as (-> & nm & ->).
      destruct s as [|c [|c' s]]; injection E as <- <-; (apply parts_push; [exact I|exact Logic.I]).
    - rewrite gen_cat_eq in E. destruct (gen_list (gen cs) _ b) as [[b1 ids]|] eqn:El; [|discriminate].
      destruct (parts_list l) as (Hl & Hp & _). { intros n c Hin. apply Hn. cbn [t_names]. apply in_app_iff. auto. }
      pose proof (gen_list_parts _ H _ _ _ Hl I El) as I1. pose proof (gen_list_length _ _ _ _ El) as Hlen. clear El.
      unfold gen_cat in E. destruct (map_get nats_eqb ids (cat_map b1)); [injection E as <- <-; exact I1|].
      destruct (new_type_name _ _ _ _) as [[[x ident] b2]|] eqn:En; [|discriminate].
      apply new_type_name_inv in En as (-> & nm & ->). destruct (ids_ok _ _); [|discriminate].
      destruct (name_parts _ _ _ _ _) as [parts|] eqn:Ep; [|discriminate]. injection E as <- <-. apply parts_push; [exact I1|]. cbn.
      split; [exact (name_parts_nodup _ _ _ (proj1 part_end) Hp _ _ _ Ep)|]. apply name_parts_length in Ep. rewrite map_length in Ep. congruence.
    - rewrite gen_alt_eq in E. destruct (gen_list (gen cs) _ b) as [[b1 ids]|] eqn:El; [|discriminate].
      destruct (parts_list l) as (Hl & _ & Hp). { intros n c Hin. apply Hn. cbn [t_names]. apply in_app_iff. auto. }
      pose proof (gen_list_parts _ H _ _ _ Hl I El) as I1. pose proof (gen_list_length _ _ _ _ El) as Hlen. clear El.
      unfold gen_alt in E. destruct (map_get nats_eqb ids (alt_map b1)); [injection E as <- <-; exact I1|].
      destruct (new_type_name _ _ _ _) as [[[x ident] b2]|] eqn:En; [|discriminate].
      apply new_type_name_inv in En as (-> & nm & ->). destruct (ids_ok _ _); [|discriminate].
      destruct (name_parts _ _ _ _ _) as [parts|] eqn:Ep; [|discriminate]. injection E as <- <-.
      assert (Hg : NoDup parts /\ length parts = length ids).
      { split; [exact (name_parts_nodup _ _ _ (proj2 part_end) Hp _ _ _ Ep)|]. apply name_parts_length in Ep. rewrite map_length in Ep. congruence. }
      destruct (forallb _ ids); (apply parts_push; [exact I1|exact Hg]).
    - cbn [gen] in E. destruct (map_get texpr_eqb e (fix_map b)); [injection E as <- <-; exact I|].
      destruct (new_type_name _ _ _ _) as [[[x ident] b2]|] eqn:En; [|discriminate].
      apply new_type_name_inv in En as (-> & nm & ->). cbv zeta in E.
      destruct (gen cs e _) as [[b4 j]|] eqn:E4; [|discriminate].
      assert (I4 : parts_ok (data b4)).
      { eapply IHe; [| |exact E4].
        - intros n c Hin. apply Hn. cbn [t_names]. apply in_app_iff. auto.
        - apply parts_push; [exact I|exact Logic.I]. }
      cbn [data set_context] in E. destruct (nth_error (data b4) j); [|discriminate]. destruct (Nat.ltb _ _); [|discriminate].
      injection E as <- <-. intros i. specialize (I4 i). cbn. unfold def_of in *. rewrite update_nth.
      destruct (Nat.eqb i (length (data b))); [destruct (nth_error (data b4) i); exact Logic.I|exact I4].
    - cbn [gen] in E. unfold gen_variable in E. destruct (nth_error (context b) i) as [f|]; [|discriminate].
      destruct (map_get Nat.eqb f (var_map b)); [injection E as <- <-; exact I|].
      destruct (nth_error (data b) f); [|discriminate]. injection E as <- <-. apply parts_push; [exact I|exact Logic.I].
  Qed.
End Names.
