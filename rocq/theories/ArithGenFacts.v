(** * ArithGenFacts: the values of the generated arithmetic types. *)
From Coq Require Import String ZArith.
From Verif Require Export ArithGen GenTrees ArithSound PropArith.
From Coq Require Import List Lia.
Open Scope list_scope.
Local Opaque Z.pow.

Notation T := arith_tab.
(** The result of the conversion and the value of the calculation: the same
    with overflow checks; without, the conversion may panic. *)
Definition ok (k : bool) (x v : option Z) : Prop := below x v /\ (k = true -> x = v).
Lemma ok_refl k x : ok k x x.
Proof. split; [now intros ? | auto]. Qed.
Lemma ok_none k v : (k = true -> v = None) -> ok k None v.
Proof. intros H. split; [discriminate |]. intros E. now rewrite H. Qed.
Lemma ok_some k z v : ok k (Some z) v -> v = Some z.
Proof. intros [H _]. now apply H. Qed.
Lemma ok_op2 k f x y v w : ok k x v -> ok k y w -> ok k (op2 f x y) (op2 f v w).
Proof.
  intros Hx Hy. destruct x as [a |]; [apply ok_some in Hx as -> |].
  - destruct y as [b |]; [apply ok_some in Hy as ->; apply ok_refl |]. cbn. apply ok_none. intros E. destruct Hy as [_ Hy]. now rewrite <- (Hy E).
  - apply ok_none. intros E. destruct Hx as [_ Hx]. now rewrite <- (Hx E).
Qed.

(** ** Numbers *)
Lemma digits_decimal w : forall x, Forall is_digit w -> digits_value x w = decimal exact (Some x) w.
Proof.
  induction w as [| c w IH]; intros x H; [reflexivity |]. apply Forall_cons_iff in H as [Hc H]. cbn [digits_value decimal op2 c_add c_mul exact].
  rewrite (proj2 (digit_of_some c _) (conj Hc eq_refl)). rewrite IH by exact H. now rewrite (Z.mul_comm x 10).
Qed.
Lemma parse_digits w : w <> [] -> Forall is_digit w -> parse_i64 w = limit (decimal exact (Some 0%Z) w).
Proof.
  intros Hn H. unfold parse_i64. destruct w as [| c w]; [now elim Hn |]. pose proof H as H'. apply Forall_cons_iff in H' as [Hc _].
  destruct (N.eqb_spec c (chr "-")) as [-> | _]; [exfalso; revert Hc; apply nondigit_ops |].
  destruct (N.eqb_spec c (chr "+")) as [-> | _]; [exfalso; revert Hc; apply nondigit_ops |].
  rewrite digits_decimal by exact H. destruct (decimal exact _ _); [| reflexivity]. cbn [limit]. now rewrite in_i64_fits.
Qed.
Lemma digit_value_pos c : (0 <= digit_value c)%Z.
Proof. unfold digit_value. lia. Qed.
Lemma decimal_grows w : forall x z, (0 <= x)%Z -> decimal exact (Some x) w = Some z -> (x <= z)%Z.
Proof.
  induction w as [| c w IH]; intros x z Hx E; [injection E as <-; lia |]. cbn [decimal op2 c_add c_mul exact] in E. pose proof (digit_value_pos c).
  apply IH in E; lia.
Qed.
Lemma limit_none z : (2 ^ 63 <= z)%Z -> limit (Some z) = None.
Proof. intros H. cbn. destruct (fits z) eqn:E; [| reflexivity]. apply fits_iff in E. lia. Qed.
Lemma decimal_none_any C w : decimal C None w = None.
Proof. induction w as [| c w IH]; [reflexivity |]. exact IH. Qed.
Lemma decimal_checked w : forall x, (0 <= x)%Z -> fits x = true -> decimal checked (Some x) w = limit (decimal exact (Some x) w).
Proof.
  induction w as [| c w IH]; intros x Hx Hf; [cbn [decimal limit]; now rewrite Hf |]. cbn [decimal op2 c_mul checked exact limit].
  destruct (decimal_some w (x * 10 + digit_value c)) as [z Ez]. pose proof (digit_value_pos c). pose proof pow63.
  assert (Hz : (x * 10 + digit_value c <= z)%Z) by (apply decimal_grows in Ez; lia).
  destruct (fits (x * 10)) eqn:E1.
  - cbn [op2 c_add checked exact limit]. destruct (fits (x * 10 + digit_value c)) eqn:E2.
    + apply IH; [lia | exact E2].
    + rewrite decimal_none_any. cbn [op2 c_add c_mul exact]. rewrite Ez. symmetry. apply limit_none.
      assert (~ fits (x * 10 + digit_value c) = true) by congruence. rewrite fits_iff in H1. lia.
  - cbn [op2]. rewrite decimal_none_any. cbn [op2 c_add c_mul exact]. rewrite Ez. symmetry. apply limit_none.
    assert (~ fits (x * 10) = true) by congruence. rewrite fits_iff in H1. lia.
Qed.
Lemma number_ok k w : w <> [] -> Forall is_digit w -> ok k (parse_i64 w) (decimal (machine k) (Some 0%Z) w).
Proof.
  intros Hn Hw. rewrite parse_digits by assumption. assert (H0 : fits 0 = true) by (apply fits_iff; pose proof pow63; lia).
  rewrite <- decimal_checked by (exact H0 || lia). destruct k; [apply ok_refl |]. split; [| discriminate].
  apply decimal_below; [exact checked_wrapping | now intros ?].
Qed.

(** ** The types *)
Lemma ids_pos : plus_ids T 7 22 18 21 19 20.
Proof. repeat split; repeat eexists; reflexivity. Qed.
Lemma ids_number : plus_ids T 31 35 18 34 32 33.
Proof. repeat split; repeat eexists; reflexivity. Qed.
Lemma ids_spaces : plus_ids T 25 29 1 28 26 27.
Proof. repeat split; repeat eexists; reflexivity. Qed.
Lemma ids_prod : list_ids T 6 56 46 55 47 54 50 52 53.
Proof. repeat split; repeat eexists; reflexivity. Qed.
Lemma ids_arith : list_ids T 5 65 6 64 57 63 59 61 62.
Proof. repeat split; repeat eexists; reflexivity. Qed.

Lemma digit_sound t : derives T 18 t -> exists c, yield t = [c] /\ is_digit c.
Proof.
  intros H. eapply alt_inv in H as (k & j & t' & -> & Hk & H); [| reflexivity]. cbn [yield].
  do 10 (destruct k as [| k]; [injection Hk as <-; apply derives_inv in H; cbn in H; subst t'; eexists; split; [reflexivity |]; unfold is_digit; lia |]).
  now destruct k.
Qed.
Lemma digit_complete c : is_digit c -> exists t, derives T 18 t /\ yield t = [c].
Proof.
  unfold is_digit. intros H. exists (NAlt (N.to_nat (c - 48)) (NLit [c])). split; [| reflexivity].
  eapply (derives_alt T 18 _ _ _ _ _ _ (N.to_nat (c - 48)) (8 + N.to_nat (c - 48))); [reflexivity | |].
  - assert (E : In c [48; 49; 50; 51; 52; 53; 54; 55; 56; 57]%N) by (cbn; lia).
    repeat (destruct E as [<- | E]; [reflexivity |]). destruct E.
  - apply (derives_lit T _ [c] (Some c)). assert (E : In c [48; 49; 50; 51; 52; 53; 54; 55; 56; 57]%N) by (cbn; lia).
    repeat (destruct E as [<- | E]; [reflexivity |]). destruct E.
Qed.
Lemma digits_sound a b o e v t : plus_ids T a b 18 o e v -> derives T a t -> yield t <> [] /\ Forall is_digit (yield t).
Proof.
  intros Hi H. apply (plus_iff T _ _ _ _ _ _ _ Hi) in H as (y & l & -> & H). rewrite plus_yield.
  assert (E : Forall is_digit (flat_map yield (y :: l))).
  { revert H. generalize (y :: l) as m. induction m as [| x m IH]; intros H; [constructor |]. apply Forall_cons_iff in H as [Hx H]. cbn [flat_map].
    apply digit_sound in Hx as (c & -> & Hc). constructor; [exact Hc | now apply IH]. }
  split; [| exact E]. apply Forall_cons_iff in H as [Hy _]. apply digit_sound in Hy as (c & Ec & _). cbn [flat_map]. rewrite Ec. discriminate.
Qed.
Lemma plus_complete a b x o e v (P : N -> Prop) w : plus_ids T a b x o e v -> (forall c, P c -> exists t, derives T x t /\ yield t = [c]) ->
  w <> [] -> Forall P w -> exists t, derives T a t /\ yield t = w.
Proof.
  intros Hi Hc Hw H. assert (E : exists l, Forall (derives T x) l /\ flat_map yield l = w).
  { clear Hw. induction H as [| c w Hp _ (l & Hl & E)]; [exists []; auto |]. apply Hc in Hp as (t & Ht & Ey). exists (t :: l). split; [now constructor |]. cbn [flat_map]. now rewrite Ey, E. }
  destruct E as ([| y l] & Hl & E); [now elim Hw |]. exists (plus_tree y l). split; [apply (plus_iff T _ _ _ _ _ _ _ Hi); eauto | now rewrite plus_yield].
Qed.
Definition ws_id (o : nat) : Prop := exists p e f n q c, def_of T o = Some (DAlt p [e; 25] f n q c) /\ def_of T e = Some DEps.
Lemma ws_sound o t : ws_id o -> derives T o t -> blank (yield t).
Proof.
  intros (p & e & f & n & q & c & Eo & Ee) H. apply (opt_iff T _ _ _ _ _ _ _ _ _ Eo Ee) in H as [-> | (t' & -> & H)]; [constructor |].
  apply (plus_iff T _ _ _ _ _ _ _ ids_spaces) in H as (y & l & -> & H). cbn [yield]. rewrite plus_yield. revert H. generalize (y :: l) as m.
  induction m as [| x m IH]; intros H; [constructor |]. apply Forall_cons_iff in H as [Hx H]. eapply lit_inv in Hx as ->; [| reflexivity].
  cbn [flat_map yield app]. constructor; [reflexivity | now apply IH].
Qed.
Lemma ws_complete o s : ws_id o -> blank s -> exists t, derives T o t /\ yield t = s.
Proof.
  intros (p & e & f & n & q & c & Eo & Ee) H. destruct s as [| x s]; [exists (NAlt 0 NEps); split; [apply (opt_iff T _ _ _ _ _ _ _ _ _ Eo Ee); auto | reflexivity] |].
  destruct (plus_complete _ _ _ _ _ _ (eq 32%N) (x :: s) ids_spaces) as (t & Ht & E); [| discriminate | exact H |].
  - intros y <-. exists (NLit [32%N]). split; [now eapply (derives_lit T 1) | reflexivity].
  - exists (NAlt 1 t). split; [| exact E]. apply (opt_iff T _ _ _ _ _ _ _ _ _ Eo Ee). eauto.
Qed.
Lemma ws30 : ws_id 30. Proof. repeat eexists; reflexivity. Qed.
Lemma ws39 : ws_id 39. Proof. repeat eexists; reflexivity. Qed.
Lemma ws45 : ws_id 45. Proof. repeat eexists; reflexivity. Qed.
Lemma ws52 : ws_id 52. Proof. repeat eexists; reflexivity. Qed.
Lemma ws61 : ws_id 61. Proof. repeat eexists; reflexivity. Qed.

(** ** From trees to expressions *)
Definition rest_tree (l : list (tree * tree * tree)) : tree :=
  match l with [] => NAlt 0 NEps | (p, w, y) :: l' => NAlt 1 (NCat [p; w; NBox (list_tree y l')]) end.
Lemma list_tree_rest x l : list_tree x l = NCat [x; rest_tree l].
Proof. now destruct l. Qed.
Lemma item_size x l i : In i l -> tree_size (snd i) < tree_size (list_tree x l).
Proof.
  revert x. induction l as [| [[p w] y] l IH]; intros x []; cbn [list_tree tree_size].
  - subst i. cbn [snd]. destruct l as [| [[? ?] ?] ?]; cbn; lia.
  - specialize (IH y H). lia.
Qed.
Lemma head_size x l : tree_size x < tree_size (list_tree x l).
Proof. rewrite list_tree_rest. cbn [tree_size]. lia. Qed.

Lemma ok_ops k f g x y v w : (forall a b, f a b = g a b) -> ok k x v -> ok k y w -> ok k (op2 f x y) (op2 g v w).
Proof.
  intros E Hx Hy. replace (op2 f x y) with (op2 g x y); [now apply ok_op2 |]. destruct x, y; cbn; now rewrite ?E.
Qed.
Section Sound.
  Variable k : bool.
  Notation C := (machine k).
  Definition term_good (t : tree) : Prop := exists v, Term C (yield t) v /\ ok k (of_term k t) v.
  Definition prod_good (t : tree) : Prop := exists v, Prod C (yield t) v /\ ok k (of_prod k t) v.
  Definition arith_good (t : tree) : Prop := exists v, Expr C (yield t) v /\ ok k (of_arith k t) v.
  Definition folded (f : Z -> tree -> option Z) (x : option Z) (t : tree) : option Z := match x with Some acc => f acc t | None => None end.

  Lemma prod_step acc j q w y o : prod_rest k acc (NAlt 1 (NCat [NAlt j q; w; NBox (NCat [y; o])])) =
    match of_term k y with Some v => match prod_op k j acc v with Some acc' => prod_rest k acc' o | None => None end | None => None end.
  Proof. reflexivity. Qed.
  Lemma prod_fold l : forall w0 v0 x, Prod C w0 v0 -> ok k x v0 -> Forall (item_ok T 50 52 46) l -> Forall (fun i => term_good (snd i)) l ->
    exists v, Prod C (w0 ++ flat_map item_yield l) v /\ ok k (folded (prod_rest k) x (rest_tree l)) v.
  Proof.
    induction l as [| [[p w] y] l IH]; intros w0 v0 x Hw Hx Hl Hg.
    - exists v0. cbn [flat_map]. rewrite app_nil_r. split; [exact Hw |]. now destruct x.
    - apply Forall_cons_iff in Hl as [(Hp & Hws & _) Hl]. apply Forall_cons_iff in Hg as [(vy & Hy & Ey) Hg]. cbn [fst snd] in *.
      apply (ws_sound _ _ ws52) in Hws.
      assert (E : exists j q v, p = NAlt j q /\ Prod C (w0 ++ yield p ++ yield w ++ yield y) v /\ ok k (op2 (prod_op k j) x (of_term k y)) v).
      { eapply alt2_inv in Hp as [(t' & -> & Ht) | (t' & -> & Ht)]; [| | reflexivity]; eapply lit_inv in Ht as ->; try reflexivity.
        - exists 0, (NLit (lit "*")). eexists. split; [reflexivity |]. split; [apply (prod_mul C); eassumption |]. apply ok_ops; [apply mul_machine | exact Hx | exact Ey].
        - exists 1, (NLit (lit "/")). eexists. split; [reflexivity |]. split; [apply (prod_div C); eassumption |]. apply ok_ops; [apply div_machine | exact Hx | exact Ey]. }
      destruct E as (j & q & vj & -> & E & Ej). destruct (IH _ _ _ E Ej Hl Hg) as (v & Hv & Ev).
      exists v. cbn [flat_map]. unfold item_yield at 1. cbn [fst snd]. rewrite <- !app_assoc in *. split; [exact Hv |].
      destruct x as [acc |]; [| exact Ev]. cbn [folded rest_tree]. rewrite list_tree_rest, prod_step. destruct (of_term k y) as [z |]; [| exact Ev].
      cbn [op2] in Ev. exact Ev.
  Qed.
  Lemma arith_step acc j q w y o : arith_rest k acc (NAlt 1 (NCat [NAlt j q; w; NBox (NCat [y; o])])) =
    match of_prod k y with Some v => match arith_op k j acc v with Some acc' => arith_rest k acc' o | None => None end | None => None end.
  Proof. reflexivity. Qed.
  Lemma arith_fold l : forall w0 v0 x, Expr C w0 v0 -> ok k x v0 -> Forall (item_ok T 59 61 6) l -> Forall (fun i => prod_good (snd i)) l ->
    exists v, Expr C (w0 ++ flat_map item_yield l) v /\ ok k (folded (arith_rest k) x (rest_tree l)) v.
  Proof.
    induction l as [| [[p w] y] l IH]; intros w0 v0 x Hw Hx Hl Hg.
    - exists v0. cbn [flat_map]. rewrite app_nil_r. split; [exact Hw |]. now destruct x.
    - apply Forall_cons_iff in Hl as [(Hp & Hws & _) Hl]. apply Forall_cons_iff in Hg as [(vy & Hy & Ey) Hg]. cbn [fst snd] in *.
      apply (ws_sound _ _ ws61) in Hws.
      assert (E : exists j q v, p = NAlt j q /\ Expr C (w0 ++ yield p ++ yield w ++ yield y) v /\ ok k (op2 (arith_op k j) x (of_prod k y)) v).
      { eapply alt2_inv in Hp as [(t' & -> & Ht) | (t' & -> & Ht)]; [| | reflexivity]; eapply lit_inv in Ht as ->; try reflexivity.
        - exists 0, (NLit (lit "+")). eexists. split; [reflexivity |]. split; [apply (expr_add C); eassumption |]. apply ok_ops; [apply add_machine | exact Hx | exact Ey].
        - exists 1, (NLit (lit "-")). eexists. split; [reflexivity |]. split; [apply (expr_sub C); eassumption |]. apply ok_ops; [apply sub_machine | exact Hx | exact Ey]. }
      destruct E as (j & q & vj & -> & E & Ej). destruct (IH _ _ _ E Ej Hl Hg) as (v & Hv & Ev).
      exists v. cbn [flat_map]. unfold item_yield at 1. cbn [fst snd]. rewrite <- !app_assoc in *. split; [exact Hv |].
      destruct x as [acc |]; [| exact Ev]. cbn [folded rest_tree]. rewrite list_tree_rest, arith_step. destruct (of_prod k y) as [z |]; [| exact Ev].
      cbn [op2] in Ev. exact Ev.
  Qed.
  Lemma of_prod_list y l : of_prod k (list_tree y l) = folded (prod_rest k) (of_term k y) (rest_tree l).
  Proof. rewrite list_tree_rest. reflexivity. Qed.
  Lemma of_arith_list y l : of_arith k (list_tree y l) = folded (arith_rest k) (of_prod k y) (rest_tree l).
  Proof. rewrite list_tree_rest. reflexivity. Qed.

  Lemma trees_good n :
    (forall t, tree_size t <= n -> derives T 46 t -> term_good t) /\ (forall t, tree_size t <= n -> derives T 6 t -> prod_good t) /\
    (forall t, tree_size t <= n -> derives T 5 t -> arith_good t).
  Proof.
    induction n as [| n (IHt & IHp & IHa)]; [repeat split; intros [] H; cbn in H; lia |].
    assert (Ht : forall t, tree_size t <= S n -> derives T 46 t -> term_good t).
    { intros t Hs H. eapply cat2_inv in H as (x & w & -> & Hx & Hw); [| reflexivity]. apply (ws_sound _ _ ws45) in Hw.
      unfold term_good. cbn [yield flat_map]. rewrite app_nil_r.
      eapply alt3_inv in Hx as [(n0 & -> & Hx) | [(n0 & -> & Hx) | (n0 & -> & Hx)]]; [| | | reflexivity]; cbn [yield].
      - destruct (digits_sound _ _ _ _ _ _ ids_pos Hx) as [H1 H2]. eexists. split; [apply term_num; [now constructor | exact Hw] |].
        cbn [of_term]. now apply number_ok.
      - eapply cat3_inv in Hx as (x1 & x2 & x3 & -> & H1 & H2 & H3); [| reflexivity]. eapply lit_inv in H1 as ->; [| reflexivity].
        apply (ws_sound _ _ ws30) in H2. destruct (digits_sound _ _ _ _ _ _ ids_number H3) as [H4 H5].
        cbn [yield flat_map]. rewrite app_nil_r, <- !app_assoc. eexists. split; [apply (term_neg C); [exact H2 | now constructor | exact Hw] |].
        cbn [of_term]. pose proof (number_ok k _ H4 H5) as Hn. fold (number_of x3) in Hn. destruct (number_of x3) as [z |].
        + apply ok_some in Hn as ->. cbn [op1]. rewrite neg_machine. apply ok_refl.
        + apply ok_none. intros E. destruct Hn as [_ Hn]. now rewrite <- (Hn E).
      - eapply cat4_inv in Hx as (x1 & x2 & x3 & x4 & -> & H1 & H2 & H3 & H4); [| reflexivity].
        eapply lit_inv in H1 as ->; [| reflexivity]. eapply lit_inv in H4 as ->; [| reflexivity]. apply (ws_sound _ _ ws39) in H2.
        eapply box_inv in H3 as (e & -> & H3); [| reflexivity]. eapply fix_inv in H3; [| reflexivity].
        apply IHa in H3 as (v & Hv & Ev); [| cbn in Hs; lia]. exists v. split; [| exact Ev].
        cbn [yield flat_map]. rewrite app_nil_r, <- !app_assoc. now apply (term_paren C). }
    assert (Hp : forall t, tree_size t <= S n -> derives T 6 t -> prod_good t).
    { intros t Hs H. apply (list_iff T _ _ _ _ _ _ _ _ _ _ ids_prod) in H as (y & l & -> & Hy & Hl). pose proof (head_size y l).
      destruct (Ht y ltac:(lia) Hy) as (v0 & H0 & E0).
      assert (Hg : Forall (fun i => term_good (snd i)) l).
      { rewrite Forall_forall in *. intros i Hi. pose proof (item_size y l i Hi). apply Ht; [lia |]. now apply Hl. }
      destruct (prod_fold l (yield y) v0 _ (prod_term _ _ _ H0) E0 Hl Hg) as (v & Hv & Ev). exists v. now rewrite list_yield, of_prod_list. }
    split; [exact Ht |]. split; [exact Hp |].
    intros t Hs H. apply (list_iff T _ _ _ _ _ _ _ _ _ _ ids_arith) in H as (y & l & -> & Hy & Hl). pose proof (head_size y l).
    destruct (Hp y ltac:(lia) Hy) as (v0 & H0 & E0).
    assert (Hg : Forall (fun i => prod_good (snd i)) l).
    { rewrite Forall_forall in *. intros i Hi. pose proof (item_size y l i Hi). apply Hp; [lia |]. now apply Hl. }
    destruct (arith_fold l (yield y) v0 _ (expr_prod _ _ _ H0) E0 Hl Hg) as (v & Hv & Ev). exists v. now rewrite list_yield, of_arith_list.
  Qed.
  Lemma ast_good t : derives T 0 t -> exists b w v, yield t = b ++ w /\ blank b /\ Expr C w v /\ ok k (of_ast k t) v.
  Proof.
    remember (tree_size t) as n eqn:Ek. assert (Hk : tree_size t <= n) by lia. clear Ek. revert t Hk.
    induction n as [| n IH]; intros t Hk H; [destruct t; cbn in Hk; lia |]. eapply fix_inv in H; [| reflexivity].
    eapply alt2_inv in H as [(t' & -> & H) | (t' & -> & H)]; [| | reflexivity].
    - eapply cat2_inv in H as (x & y & -> & Hx & Hy); [| reflexivity]. eapply lit_inv in Hx as ->; [| reflexivity].
      eapply box_inv in Hy as (z & -> & Hz); [| reflexivity]. apply IH in Hz as (b & w & v & E & Hb & He & Hv); [| cbn in Hk; lia].
      exists (32%N :: b), w, v. cbn [yield flat_map of_ast]. rewrite app_nil_r, E. split; [reflexivity |]. split; [now constructor | auto].
    - eapply fix_inv in H; [| reflexivity]. destruct (trees_good n) as (_ & _ & G). destruct (G t') as (v & Hv & Ev); [cbn in Hk; lia | exact H |].
      exists [], (yield t'), v. cbn [yield of_ast]. split; [reflexivity |]. split; [constructor | auto].
  Qed.
End Sound.

(** ** From expressions to trees *)
Section Complete.
  Variable C : calculator.
  Lemma trees_exist :
    (forall w v, Term C w v -> exists t, derives T 46 t /\ yield t = w) /\
    (forall w v, Prod C w v -> exists y l, derives T 46 y /\ Forall (item_ok T 50 52 46) l /\ yield y ++ flat_map item_yield l = w) /\
    (forall w v, Expr C w v -> exists y l, derives T 6 y /\ Forall (item_ok T 59 61 6) l /\ yield y ++ flat_map item_yield l = w).
  Proof.
    assert (Hnum : forall a b o e i w v, plus_ids T a b 18 o e i -> Number C w v -> exists t, derives T a t /\ yield t = w).
    { intros a b o e i w v Hi [w' Hw Hd]. now apply (plus_complete _ _ _ _ _ _ is_digit w' Hi digit_complete). }
    assert (Hterm : forall j x s r, nth_error [7; 36; 42] j = Some x -> derives T x r -> blank s -> exists t, derives T 46 t /\ yield t = yield r ++ s).
    { intros j x s r Hj Hr Hs. destruct (ws_complete _ _ ws45 Hs) as (t & Ht & <-). exists (NCat [NAlt j r; t]). split; [| cbn; now rewrite app_nil_r].
      eapply (derives_cat T 46); [reflexivity |]. constructor; [| constructor; [exact Ht | constructor]]. eapply (derives_alt T 43); [reflexivity | exact Hj | exact Hr]. }
    assert (Hsnoc : forall p w x y l (z : tree * tree * tree), item_ok T p w x z -> Forall (item_ok T p w x) l ->
      Forall (item_ok T p w x) (l ++ [z]) /\ yield y ++ flat_map item_yield (l ++ [z]) = (yield y ++ flat_map item_yield l) ++ item_yield z).
    { intros p w x y l z Hz Hl. split; [apply Forall_app; auto |]. rewrite flat_map_app. cbn [flat_map]. now rewrite app_nil_r, app_assoc. }
    apply Term_mut.
    - intros w v s Hn Hs. destruct (Hnum _ _ _ _ _ _ _ ids_pos Hn) as (r & Hr & <-). exact (Hterm 0 7 s r eq_refl Hr Hs).
    - intros s w v s' Hs Hn Hs'. destruct (Hnum _ _ _ _ _ _ _ ids_number Hn) as (r & Hr & <-). destruct (ws_complete _ _ ws30 Hs) as (q & Hq & <-).
      destruct (Hterm 1 36 s' (NCat [NLit (lit "-"); q; r]) eq_refl) as (t & Ht & E).
      + eapply (derives_cat T 36); [reflexivity |]. constructor; [now eapply derives_lit |]. constructor; [exact Hq |]. constructor; [exact Hr | constructor].
      + exact Hs'.
      + exists t. split; [exact Ht |]. rewrite E. cbn [yield flat_map]. now rewrite app_nil_r, <- !app_assoc.
    - intros s w v s' Hs _ (y & l & Hy & Hl & <-) Hs'. destruct (ws_complete _ _ ws39 Hs) as (q & Hq & <-).
      destruct (Hterm 2 42 s' (NCat [NLit (lit "("); q; NBox (list_tree y l); NLit (lit ")")]) eq_refl) as (t & Ht & E).
      + eapply (derives_cat T 42); [reflexivity |]. constructor; [now eapply derives_lit |]. constructor; [exact Hq |]. constructor; [| constructor; [now eapply derives_lit | constructor]].
        eapply (derives_box T 40); [reflexivity |]. eapply (derives_fix T 4); [reflexivity |]. apply (list_iff T _ _ _ _ _ _ _ _ _ _ ids_arith). eauto.
      + exact Hs'.
      + exists t. split; [exact Ht |]. rewrite E. cbn [yield flat_map]. now rewrite list_yield, app_nil_r, <- !app_assoc.
    - intros w v _ (t & Ht & <-). exists t, []. split; [exact Ht |]. split; [constructor | apply app_nil_r].
    - intros w v s w' v' _ (y & l & Hy & Hl & <-) Hs _ (t & Ht & <-). destruct (ws_complete _ _ ws52 Hs) as (q & Hq & <-).
      destruct (Hsnoc 50 52 46 y l (NAlt 0 (NLit (lit "*")), q, t)) as [H1 H2]; [| exact Hl | exists y, (l ++ [(NAlt 0 (NLit (lit "*")), q, t)]); now rewrite H2].
      split; [| split; assumption]. eapply (derives_alt T 50); [reflexivity | reflexivity | now eapply derives_lit].
    - intros w v s w' v' _ (y & l & Hy & Hl & <-) Hs _ (t & Ht & <-). destruct (ws_complete _ _ ws52 Hs) as (q & Hq & <-).
      destruct (Hsnoc 50 52 46 y l (NAlt 1 (NLit (lit "/")), q, t)) as [H1 H2]; [| exact Hl | exists y, (l ++ [(NAlt 1 (NLit (lit "/")), q, t)]); now rewrite H2].
      split; [| split; assumption]. eapply (derives_alt T 50); [reflexivity | reflexivity | now eapply derives_lit].
    - intros w v _ (y & l & Hy & Hl & <-). exists (list_tree y l), []. split; [apply (list_iff T _ _ _ _ _ _ _ _ _ _ ids_prod); eauto |].
      split; [constructor |]. cbn [flat_map]. now rewrite list_yield, app_nil_r.
    - intros w v s w' v' _ (y & l & Hy & Hl & <-) Hs _ (y' & l' & Hy' & Hl' & <-). destruct (ws_complete _ _ ws61 Hs) as (q & Hq & <-).
      destruct (Hsnoc 59 61 6 y l (NAlt 0 (NLit (lit "+")), q, list_tree y' l')) as [H1 H2]; [| exact Hl |].
      + split; [| split; [exact Hq | apply (list_iff T _ _ _ _ _ _ _ _ _ _ ids_prod); exists y', l'; auto]]. eapply (derives_alt T 59); [reflexivity | reflexivity | now eapply derives_lit].
      + exists y, (l ++ [(NAlt 0 (NLit (lit "+")), q, list_tree y' l')]). rewrite H2. split; [exact Hy |]. split; [exact H1 |]. unfold item_yield at 2. cbn [fst snd]. now rewrite list_yield.
    - intros w v s w' v' _ (y & l & Hy & Hl & <-) Hs _ (y' & l' & Hy' & Hl' & <-). destruct (ws_complete _ _ ws61 Hs) as (q & Hq & <-).
      destruct (Hsnoc 59 61 6 y l (NAlt 1 (NLit (lit "-")), q, list_tree y' l')) as [H1 H2]; [| exact Hl |].
      + split; [| split; [exact Hq | apply (list_iff T _ _ _ _ _ _ _ _ _ _ ids_prod); exists y', l'; auto]]. eapply (derives_alt T 59); [reflexivity | reflexivity | now eapply derives_lit].
      + exists y, (l ++ [(NAlt 1 (NLit (lit "-")), q, list_tree y' l')]). rewrite H2. split; [exact Hy |]. split; [exact H1 |]. unfold item_yield at 2. cbn [fst snd]. now rewrite list_yield.
  Qed.
  Lemma ast_exists b w v : blank b -> Expr C w v -> exists t, derives T 0 t /\ yield t = b ++ w.
  Proof.
    intros Hb He. apply trees_exist in He as (y & l & Hy & Hl & <-). induction Hb as [| c b <- _ (t & Ht & E)].
    - exists (NAlt 1 (list_tree y l)). split; [| apply list_yield]. eapply (derives_fix T 0); [reflexivity |]. eapply (derives_alt T 66); [reflexivity | reflexivity |].
      eapply (derives_fix T 4); [reflexivity |]. apply (list_iff T _ _ _ _ _ _ _ _ _ _ ids_arith). eauto.
    - exists (NAlt 0 (NCat [NLit (lit " "); NBox t])). split; [| cbn [yield flat_map]; rewrite app_nil_r, E; reflexivity].
      eapply (derives_fix T 0); [reflexivity |]. eapply (derives_alt T 66); [reflexivity | reflexivity |]. eapply (derives_cat T 3); [reflexivity |].
      constructor; [now eapply derives_lit |]. constructor; [| constructor]. now eapply (derives_box T 2).
  Qed.
End Complete.
