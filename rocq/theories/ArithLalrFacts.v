(** * ArithLalrFacts: LALRPOP's reading of a text and the generated trees. *)
From Coq Require Import String ZArith.
From Verif Require Export ArithLalr ArithGenFacts.
From Coq Require Import List Lia.
Open Scope list_scope.
Local Opaque Z.pow.

(** ** Tokens *)
Lemma decimal_digit_iff c : decimal_digit c = true <-> is_digit c.
Proof. unfold decimal_digit, is_digit. rewrite andb_true_iff, !N.leb_le. reflexivity. Qed.
Lemma white_digit c : white c = true -> decimal_digit c = false.
Proof.
  unfold white, decimal_digit. cbn [existsb fst snd]. intros H. destruct (48 <=? c)%N eqn:E1; [| reflexivity]. destruct (c <=? 57)%N eqn:E2; [| reflexivity]. apply N.leb_le in E1, E2.
  repeat (apply orb_true_iff in H as [H | H]; [apply andb_true_iff in H as [H1 H2]; apply N.leb_le in H1, H2; lia |]). discriminate H.
Qed.
Lemma digit_white c : is_digit c -> white c = false.
Proof. intros H. destruct (white c) eqn:E; [| reflexivity]. apply white_digit in E. apply decimal_digit_iff in H. congruence. Qed.
Lemma symbol_digit c t : symbol c = Some t -> white c = false /\ decimal_digit c = false.
Proof.
  unfold symbol. repeat match goal with |- context [if (?a =? ?b)%N then _ else _] => destruct (N.eqb_spec a b) as [-> |]; [intros _; split; reflexivity |] end. discriminate.
Qed.
Lemma alex_white c s : white c = true -> alex (c :: s) = alex s.
Proof. intros H. cbn [alex]. rewrite H. destruct (alex s); reflexivity. Qed.
Lemma alex_blank b s : blank b -> alex (b ++ s) = alex s.
Proof. induction 1 as [| c b <- _ IH]; [reflexivity |]. cbn [app]. now rewrite alex_white. Qed.
Lemma alex_symbol c t s : symbol c = Some t -> alex (c :: s) = option_map (cons t) (alex s).
Proof. intros H. destruct (symbol_digit _ _ H) as [W D]. cbn [alex]. rewrite W, D, H. destruct (alex s); reflexivity. Qed.
(** A text that starts with a digit starts with a number. *)
Lemma alex_digit s ts : starts_digit s = true -> alex s = Some ts -> exists w ts', ts = ANum w :: ts'.
Proof.
  destruct s as [| c s]; [discriminate |]. cbn [starts_digit alex]. intros D E. destruct (alex s) as [us |]; [| discriminate E].
  rewrite (digit_white c) in E by now apply decimal_digit_iff. rewrite D in E. destruct (starts_digit s), us as [| [] us]; injection E as <-; eauto.
Qed.
Lemma alex_cons_digit c s ts : is_digit c -> alex s = Some ts ->
  (starts_digit s = true /\ exists w ts', ts = ANum w :: ts' /\ alex (c :: s) = Some (ANum (c :: w) :: ts'))
  \/ (starts_digit s = false /\ alex (c :: s) = Some (ANum [c] :: ts)).
Proof.
  intros D E. cbn [alex]. rewrite E, (digit_white c D), (proj2 (decimal_digit_iff c) D). destruct (starts_digit s) eqn:S; [| now right].
  destruct (alex_digit s ts S E) as (w & ts' & ->). left. split; [reflexivity |]. exists w, ts'. auto.
Qed.
Lemma alex_app a b x y : starts_digit b = false -> alex a = Some x -> alex b = Some y -> alex (a ++ b) = Some (x ++ y).
Proof.
  intros Hb. revert x. induction a as [| c a IH]; intros x Ha Hy; [injection Ha as <-; exact Hy |]. cbn [app].
  destruct (alex a) as [ts |] eqn:Ea; [| cbn [alex] in Ha; rewrite Ea in Ha; discriminate Ha]. specialize (IH ts eq_refl Hy).
  destruct (decimal_digit c) eqn:D.
  - apply decimal_digit_iff in D. assert (E : starts_digit (a ++ b) = starts_digit a) by (destruct a; [exact Hb | reflexivity]).
    destruct (alex_cons_digit c a ts D Ea) as [(S & w & ts' & -> & E1) | (S & E1)]; destruct (alex_cons_digit c (a ++ b) _ D IH) as [(S' & w' & ts2 & E2 & E3) | (S' & E3)]; try congruence.
    + cbn [app] in E2. injection E2 as <- <-. rewrite E1 in Ha. injection Ha as <-. exact E3.
    + rewrite E1 in Ha. injection Ha as <-. exact E3.
  - cbn [alex] in *. rewrite Ea in Ha. rewrite IH. rewrite D in *. destruct (white c); [injection Ha as <-; reflexivity |]. destruct (symbol c); [| discriminate Ha]. now injection Ha as <-.
Qed.

(** Texts whose only white space is the space, and texts that do not start
    with white space. *)
Definition plain (s : rstr) : Prop := Forall (fun c => white c = true -> c = 32%N) s.
Definition firm (s : rstr) : Prop := match s with c :: _ => white c = false | [] => True end.
Lemma strip s : plain s -> exists b r, s = b ++ r /\ blank b /\ firm r /\ alex s = alex r.
Proof.
  induction 1 as [| c s Hc Hs (b & r & -> & Hb & Hr & E)]; [exists [], []; repeat split; constructor |].
  destruct (white c) eqn:W.
  - exists (32%N :: b), r. rewrite (Hc eq_refl). repeat split; [now constructor | exact Hr |]. rewrite alex_white by reflexivity. exact E.
  - exists [], (c :: b ++ r). repeat split; [constructor | exact W].
Qed.
Lemma alex_none s : plain s -> alex s = Some [] -> blank s.
Proof.
  induction 1 as [| c s Hc Hs IH]; intros E; [constructor |]. cbn [alex] in E. destruct (alex s) as [ts |]; [| discriminate E].
  destruct (white c) eqn:W; [injection E as ->; constructor; [symmetry; now apply Hc | now apply IH] |].
  destruct (decimal_digit c); [destruct (starts_digit s), ts as [| [] ts]; discriminate E | destruct (symbol c); discriminate E].
Qed.
(** The text of the first token. *)
Lemma alex_head s t ts : firm s -> alex s = Some (t :: ts) ->
  exists w r, s = w ++ r /\ alex r = Some ts /\
    match t with ANum d => w = d /\ d <> [] /\ Forall is_digit d /\ starts_digit r = false | _ => exists c, w = [c] /\ symbol c = Some t end.
Proof.
  revert t. induction s as [| c s IH]; intros t F E; [discriminate E |]. cbn [firm] in F.
  destruct (alex s) as [us |] eqn:Es; [| cbn [alex] in E; rewrite Es in E; discriminate E].
  destruct (decimal_digit c) eqn:D.
  - apply decimal_digit_iff in D. destruct (alex_cons_digit c s us D Es) as [(S & w & ts' & -> & E1) | (S & E1)]; rewrite E1 in E; injection E as <- <-.
    + destruct (IH (ANum w)) as (w' & r & -> & E2 & -> & Hn & Hd & Hr); [destruct s; [discriminate S |]; cbn [starts_digit firm] in *; apply digit_white, decimal_digit_iff, S | reflexivity |].
      exists (c :: w), r. repeat split; auto; try discriminate; try (now constructor).
    + exists [c], s. repeat split; auto; try discriminate.
  - cbn [alex] in E. rewrite Es, F, D in E. destruct (symbol c) as [t' |] eqn:Sc; [| discriminate E]. injection E as <- <-. exists [c], s. repeat split; auto.
    destruct t'; eauto. exfalso. unfold symbol in Sc. repeat (destruct (_ =? _)%N; [discriminate Sc |]). discriminate Sc.
Qed.
Lemma alex_split s x y : alex s = Some (x ++ y) -> y <> [] -> (forall d ts, y <> ANum d :: ts) \/ x = [] -> exists a b, s = a ++ b /\ alex a = Some x /\ alex b = Some y /\ firm b.
Proof.
  revert x. induction s as [| c s IH]; intros x E Hy Hx.
  - injection E as E. symmetry in E. apply app_eq_nil in E as [_ E]. contradiction.
  - destruct (alex s) as [us |] eqn:Es; [| cbn [alex] in E; rewrite Es in E; discriminate E].
    destruct (white c) eqn:W.
    + rewrite alex_white, Es in E by exact W. injection E as ->. destruct (IH x eq_refl Hy Hx) as (a & b & -> & Ea & Eb & Fb).
      exists (c :: a), b. repeat split; auto. now rewrite alex_white.
    + destruct x as [| t x]; [exists [], (c :: s); repeat split; auto |]. cbn [app] in E. destruct Hx as [Hx | Hx]; [| discriminate Hx].
      destruct (decimal_digit c) eqn:D.
      * apply decimal_digit_iff in D. destruct (alex_cons_digit c s us D Es) as [(S & w & ts' & -> & E1) | (S & E1)]; rewrite E1 in E; injection E as <- ->.
        -- destruct (IH (ANum w :: x) eq_refl Hy (or_introl Hx)) as (a & b & -> & Ea & Eb & Fb). exists (c :: a), b. repeat split; auto.
           assert (Sa : starts_digit a = true) by (destruct a; [discriminate Ea | exact S]).
           destruct (alex_cons_digit c a _ D Ea) as [(_ & w' & ts2 & [= <- <-] & E2) | (S' & _)]; [exact E2 | congruence].
        -- destruct (IH x eq_refl Hy (or_introl Hx)) as (a & b & -> & Ea & Eb & Fb). exists (c :: a), b. repeat split; auto.
           assert (Sa : starts_digit a = false) by (destruct a; [reflexivity | exact S]).
           destruct (alex_cons_digit c a _ D Ea) as [(S' & _) | (_ & E2)]; [congruence | exact E2].
      * cbn [alex] in E. rewrite Es, W, D in E. destruct (symbol c) as [t' |] eqn:Sc; [| discriminate E]. injection E as -> ->.
        destruct (IH x eq_refl Hy (or_introl Hx)) as (a & b & -> & Ea & Eb & Fb). exists (c :: a), b. repeat split; auto. rewrite (alex_symbol _ _ _ Sc), Ea. reflexivity.
Qed.

(** ** From trees to sentences *)
Section Values.
  Variable k : bool.
  Lemma strict_step (f : Z -> tree -> option Z) (g : Z -> Z -> option Z) (x v : option Z) (o : tree) :
    folded f (strictly g x v) o = match x with Some acc => match v with Some z => match g acc z with Some acc' => f acc' o | None => None end | None => None end | None => None end.
  Proof. destruct x as [a |], v as [z |]; try reflexivity. Qed.
  Lemma fold_none (f : option Z -> bool * option Z -> option Z) l : (forall x, f None x = None) -> fold_left f l None = None.
  Proof. intros H. induction l as [| x l IH]; [reflexivity |]. cbn [fold_left]. now rewrite H. Qed.
  Definition op_of (t : tree) : bool := match t with NAlt 0 _ => true | _ => false end.
  Lemma prod_rest_fold l : Forall (item_ok T 50 52 46) l -> forall x,
    folded (prod_rest k) x (rest_tree l) = fold_left (mul_fold k) (map (fun i => (op_of (fst (fst i)), of_term k (snd i))) l) x.
  Proof.
    induction 1 as [| [[p w] y] l (Hp & _ & _) Hl IH]; intros x; cbn [map fold_left]; [now destruct x |]. rewrite <- IH. cbn [fst snd] in *.
    assert (E : exists j q, p = NAlt j q /\ prod_op k j = (if op_of p then i64_mul k else i64_div)).
    { eapply alt2_inv in Hp as [(t' & -> & _) | (t' & -> & _)]; [| | reflexivity]; do 2 eexists; (split; [reflexivity | reflexivity]). }
    destruct E as (j & q & -> & E). unfold mul_fold. cbn [fst snd]. rewrite <- E, strict_step. destruct x as [acc |]; [| reflexivity].
    cbn [folded rest_tree]. rewrite list_tree_rest, prod_step. reflexivity.
  Qed.
  Lemma arith_rest_fold l : Forall (item_ok T 59 61 6) l -> forall x,
    folded (arith_rest k) x (rest_tree l) = fold_left (add_fold k) (map (fun i => (op_of (fst (fst i)), of_prod k (snd i))) l) x.
  Proof.
    induction 1 as [| [[p w] y] l (Hp & _ & _) Hl IH]; intros x; cbn [map fold_left]; [now destruct x |]. rewrite <- IH. cbn [fst snd] in *.
    assert (E : exists j q, p = NAlt j q /\ arith_op k j = (if op_of p then i64_add k else i64_sub k)).
    { eapply alt2_inv in Hp as [(t' & -> & _) | (t' & -> & _)]; [| | reflexivity]; do 2 eexists; (split; [reflexivity | reflexivity]). }
    destruct E as (j & q & -> & E). unfold add_fold. cbn [fst snd]. rewrite <- E, strict_step. destruct x as [acc |]; [| reflexivity].
    cbn [folded rest_tree]. rewrite list_tree_rest, arith_step. reflexivity.
  Qed.

  Lemma alex_digits w r ts : w <> [] -> Forall is_digit w -> starts_digit r = false -> alex r = Some ts -> alex (w ++ r) = Some (ANum w :: ts).
  Proof.
    intros Hn H Hr Er. destruct w as [| c w]; [congruence |]. clear Hn. revert c H. induction w as [| d w IH]; intros c H; apply Forall_cons_iff in H as [Hc H].
    - destruct (alex_cons_digit c r ts Hc Er) as [(S & _) | (_ & E)]; [congruence | exact E].
    - specialize (IH d H). destruct (alex_cons_digit c ((d :: w) ++ r) _ Hc IH) as [(_ & w' & ts' & [= <- <-] & E) | (S & _)]; [exact E |].
      cbn [app starts_digit] in S. apply Forall_cons_iff in H as [Hd _]. apply decimal_digit_iff in Hd. congruence.
  Qed.
  Lemma blank_starts b : blank b -> starts_digit b = false.
  Proof. destruct 1 as [| c b <- _]; reflexivity. Qed.
  Lemma alex_blanks b : blank b -> alex b = Some [].
  Proof. intros H. rewrite <- (app_nil_r b), alex_blank by exact H. reflexivity. Qed.

  Definition term_read (t : tree) : Prop := exists ts, alex (yield t) = Some ts /\ LTerm k ts (of_term k t).
  Definition prod_read (t : tree) : Prop := exists ts, alex (yield t) = Some ts /\ LProduct k ts (of_prod k t).
  Definition arith_read (t : tree) : Prop := exists ts, alex (yield t) = Some ts /\ LExpr k ts (of_arith k t).
  Lemma op_prod p : derives T 50 p -> exists c, yield p = [c] /\ symbol c = Some (if op_of p then ATimes else AOver).
  Proof. intros H. eapply alt2_inv in H as [(t' & -> & Ht) | (t' & -> & Ht)]; [| | reflexivity]; eapply lit_inv in Ht as ->; try reflexivity; eexists; (split; reflexivity). Qed.
  Lemma op_arith p : derives T 59 p -> exists c, yield p = [c] /\ symbol c = Some (if op_of p then APlus else AMinus).
  Proof. intros H. eapply alt2_inv in H as [(t' & -> & Ht) | (t' & -> & Ht)]; [| | reflexivity]; eapply lit_inv in Ht as ->; try reflexivity; eexists; (split; reflexivity). Qed.
  Lemma items_starts p w x l : (forall q, derives T p q -> exists c t, yield q = [c] /\ symbol c = Some t) -> Forall (item_ok T p w x) l -> starts_digit (flat_map item_yield l) = false.
  Proof.
    intros Hq [| i l' (Hp & _) _]; [reflexivity |]. cbn [flat_map]. unfold item_yield. destruct (Hq _ Hp) as (c & t & -> & Hc). cbn. apply symbol_digit in Hc. tauto.
  Qed.
  Lemma prod_items l : Forall (item_ok T 50 52 46) l -> Forall (fun i => term_read (snd i)) l ->
    exists us, alex (flat_map item_yield l) = Some us /\ LMuls k us (map (fun i => (op_of (fst (fst i)), of_term k (snd i))) l).
  Proof.
    induction 1 as [| [[p w] y] l (Hp & Hw & _) Hl IH]; intros Hg; [exists []; split; [reflexivity | constructor] |].
    apply Forall_cons_iff in Hg as [(ts & Ey & Hy) Hg]. destruct (IH Hg) as (us & Eu & Hu). cbn [fst snd flat_map map] in *. unfold item_yield at 1. cbn [fst snd].
    destruct (op_prod p Hp) as (c & -> & Hc). apply (ws_sound _ _ ws52) in Hw. eexists. split; [| apply l_muls_cons; [exact Hy | exact Hu]].
    cbn [app]. rewrite <- !app_assoc. rewrite (alex_symbol _ _ _ Hc), (alex_blank _ _ Hw).
    rewrite (alex_app _ _ ts us); [reflexivity | | exact Ey | exact Eu]. eapply items_starts; [| exact Hl]. intros q Hq. destruct (op_prod q Hq) as (d & H1 & H2). eauto.
  Qed.
  Lemma arith_items l : Forall (item_ok T 59 61 6) l -> Forall (fun i => prod_read (snd i)) l ->
    exists us, alex (flat_map item_yield l) = Some us /\ LAdds k us (map (fun i => (op_of (fst (fst i)), of_prod k (snd i))) l).
  Proof.
    induction 1 as [| [[p w] y] l (Hp & Hw & _) Hl IH]; intros Hg; [exists []; split; [reflexivity | constructor] |].
    apply Forall_cons_iff in Hg as [(ts & Ey & Hy) Hg]. destruct (IH Hg) as (us & Eu & Hu). cbn [fst snd flat_map map] in *. unfold item_yield at 1. cbn [fst snd].
    destruct (op_arith p Hp) as (c & -> & Hc). apply (ws_sound _ _ ws61) in Hw. eexists. split; [| apply l_adds_cons; [exact Hy | exact Hu]].
    cbn [app]. rewrite <- !app_assoc. rewrite (alex_symbol _ _ _ Hc), (alex_blank _ _ Hw).
    rewrite (alex_app _ _ ts us); [reflexivity | | exact Ey | exact Eu]. eapply items_starts; [| exact Hl]. intros q Hq. destruct (op_arith q Hq) as (d & H1 & H2). eauto.
  Qed.
  Lemma trees_read n :
    (forall t, tree_size t <= n -> derives T 46 t -> term_read t) /\ (forall t, tree_size t <= n -> derives T 6 t -> prod_read t) /\
    (forall t, tree_size t <= n -> derives T 5 t -> arith_read t).
  Proof.
    induction n as [| n (IHt & IHp & IHa)]; [repeat split; intros [] H; cbn in H; lia |].
    assert (Ht : forall t, tree_size t <= S n -> derives T 46 t -> term_read t).
    { intros t Hs H. eapply cat2_inv in H as (x & w & -> & Hx & Hw); [| reflexivity]. apply (ws_sound _ _ ws45) in Hw.
      unfold term_read. cbn [yield flat_map]. rewrite app_nil_r. pose proof (blank_starts _ Hw) as Sw. pose proof (alex_blanks _ Hw) as Ew.
      eapply alt3_inv in Hx as [(n0 & -> & Hx) | [(n0 & -> & Hx) | (n0 & -> & Hx)]]; [| | | reflexivity]; cbn [yield].
      - destruct (digits_sound _ _ _ _ _ _ ids_pos Hx) as [H1 H2]. eexists. split; [apply (alex_digits _ _ _ H1 H2 Sw Ew) |]. cbn [of_term]. apply l_num.
      - eapply cat3_inv in Hx as (x1 & x2 & x3 & -> & H1 & H2 & H3); [| reflexivity]. eapply lit_inv in H1 as ->; [| reflexivity].
        apply (ws_sound _ _ ws30) in H2. destruct (digits_sound _ _ _ _ _ _ ids_number H3) as [H4 H5].
        cbn [yield flat_map]. rewrite app_nil_r, <- !app_assoc. eexists. split.
        + etransitivity; [exact (alex_symbol (chr "-") AMinus (yield x2 ++ yield x3 ++ yield w) eq_refl) |].
          rewrite (alex_blank _ _ H2), (alex_digits _ _ _ H4 H5 Sw Ew). reflexivity.
        + cbn [of_term]. unfold number_of. apply l_neg.
      - eapply cat4_inv in Hx as (x1 & x2 & x3 & x4 & -> & H1 & H2 & H3 & H4); [| reflexivity].
        eapply lit_inv in H1 as ->; [| reflexivity]. eapply lit_inv in H4 as ->; [| reflexivity]. apply (ws_sound _ _ ws39) in H2.
        eapply box_inv in H3 as (e & -> & H3); [| reflexivity]. eapply fix_inv in H3; [| reflexivity].
        apply IHa in H3 as (ts & Et & Hv); [| cbn in Hs; lia]. exists (AOpen :: ts ++ [AClose]). split; [| cbn [of_term]; now apply l_paren].
        cbn [yield flat_map]. rewrite app_nil_r, <- !app_assoc. etransitivity; [exact (alex_symbol (chr "(") AOpen (yield x2 ++ yield e ++ chr ")" :: yield w) eq_refl) |].
        rewrite (alex_blank _ _ H2), (alex_app _ _ ts [AClose]); [reflexivity | reflexivity | exact Et |].
        etransitivity; [exact (alex_symbol (chr ")") AClose (yield w) eq_refl) |]. rewrite Ew. reflexivity. }
    assert (Hp : forall t, tree_size t <= S n -> derives T 6 t -> prod_read t).
    { intros t Hs H. apply (list_iff T _ _ _ _ _ _ _ _ _ _ ids_prod) in H as (y & l & -> & Hy & Hl). pose proof (head_size y l).
      destruct (Ht y ltac:(lia) Hy) as (ts & E0 & H0).
      assert (Hg : Forall (fun i => term_read (snd i)) l).
      { rewrite Forall_forall in *. intros i Hi. pose proof (item_size y l i Hi). apply Ht; [lia |]. now apply Hl. }
      destruct (prod_items l Hl Hg) as (us & Eu & Hu). exists (ts ++ us). rewrite list_yield, of_prod_list, prod_rest_fold by exact Hl. split; [| now constructor].
      apply alex_app; auto. eapply items_starts; [| exact Hl]. intros q Hq. destruct (op_prod q Hq) as (d & H1 & H2). eauto. }
    split; [exact Ht |]. split; [exact Hp |].
    intros t Hs H. apply (list_iff T _ _ _ _ _ _ _ _ _ _ ids_arith) in H as (y & l & -> & Hy & Hl). pose proof (head_size y l).
    destruct (Hp y ltac:(lia) Hy) as (ts & E0 & H0).
    assert (Hg : Forall (fun i => prod_read (snd i)) l).
    { rewrite Forall_forall in *. intros i Hi. pose proof (item_size y l i Hi). apply Hp; [lia |]. now apply Hl. }
    destruct (arith_items l Hl Hg) as (us & Eu & Hu). exists (ts ++ us). rewrite list_yield, of_arith_list, arith_rest_fold by exact Hl. split; [| now constructor].
    apply alex_app; auto. eapply items_starts; [| exact Hl]. intros q Hq. destruct (op_arith q Hq) as (d & H1 & H2). eauto.
  Qed.
  Lemma ast_read t : derives T 0 t -> lalr_reads k (yield t) (of_ast k t).
  Proof.
    remember (tree_size t) as n eqn:Ek. assert (Hk : tree_size t <= n) by lia. clear Ek. revert t Hk.
    induction n as [| n IH]; intros t Hk H; [destruct t; cbn in Hk; lia |]. eapply fix_inv in H; [| reflexivity].
    eapply alt2_inv in H as [(t' & -> & H) | (t' & -> & H)]; [| | reflexivity].
    - eapply cat2_inv in H as (x & y & -> & Hx & Hy); [| reflexivity]. eapply lit_inv in Hx as ->; [| reflexivity].
      eapply box_inv in Hy as (z & -> & Hz); [| reflexivity]. apply IH in Hz as (ts & E & He); [| cbn in Hk; lia].
      exists ts. cbn [yield flat_map of_ast]. rewrite app_nil_r. split; [| exact He]. rewrite alex_blank by (repeat constructor). exact E.
    - eapply fix_inv in H; [| reflexivity]. destruct (trees_read n) as (_ & _ & G). exact (G t' ltac:(cbn in Hk; lia) H).
  Qed.

  (** ** From sentences to trees *)
  Lemma plain_app a b : plain (a ++ b) -> plain a /\ plain b.
  Proof. apply Forall_app. Qed.
  Lemma split2 s x y : plain s -> firm s -> alex s = Some (x ++ y) -> (forall d ts, y <> ANum d :: ts) ->
    exists a b, s = a ++ b /\ alex a = Some x /\ alex b = Some y /\ plain a /\ plain b /\ firm a /\ firm b.
  Proof.
    intros P F E Hy. destruct y as [| t y].
    - exists s, []. rewrite !app_nil_r in *. repeat split; auto. constructor.
    - destruct (alex_split s x (t :: y) E) as (a & b & -> & Ea & Eb & Fb); [discriminate | now left |]. apply plain_app in P as [Pa Pb].
      exists a, b. repeat split; auto. destruct a; [exact Logic.I | exact F].
  Qed.
  Lemma muls_start us l : LMuls k us l -> forall d ts, us <> ANum d :: ts.
  Proof. intros [| op ts t us' l' _ _] d ts'; [discriminate | now destruct op]. Qed.
  Lemma adds_start us l : LAdds k us l -> forall d ts, us <> ANum d :: ts.
  Proof. intros [| op ts t us' l' _ _] d ts'; [discriminate | now destruct op]. Qed.
  Lemma symbol_eq c c' t : symbol c = Some t -> symbol c' = Some t -> c = c'.
  Proof.
    unfold symbol. repeat match goal with |- context [if (?a =? ?b)%N then _ else _] => destruct (N.eqb_spec a b) as [-> |] end; congruence.
  Qed.
  Lemma firm_nil s : plain s -> firm s -> alex s = Some [] -> s = [].
  Proof. intros P F E. apply alex_none in E; [| exact P]. destruct E as [| c s <- _]; [reflexivity |]. discriminate F. Qed.
  Lemma head_symbol c t s ts : symbol c = Some t -> plain s -> firm s -> alex s = Some (t :: ts) ->
    exists b r, s = c :: b ++ r /\ blank b /\ plain r /\ firm r /\ alex r = Some ts.
  Proof.
    intros Hc P F E. destruct (alex_head s t ts F E) as (w & r & -> & Er & Hw). assert (Hx : w = [c]).
    { destruct t; try (destruct Hw as (c' & -> & Hc'); now rewrite (symbol_eq _ _ _ Hc Hc')). exfalso. unfold symbol in Hc. repeat (destruct (_ =? _)%N; [discriminate Hc |]). discriminate Hc. }
    subst w. apply plain_app in P as [_ P]. destruct (strip r P) as (b & r' & -> & Hb & Fr & E'). apply plain_app in P as [_ P]. exists b, r'. rewrite <- E'. auto.
  Qed.
  Lemma term_tree j x s r : nth_error [7; 36; 42] j = Some x -> derives T x r -> blank s -> exists t, derives T 46 (NCat [NAlt j r; t]) /\ yield (NCat [NAlt j r; t]) = yield r ++ s.
  Proof.
    intros Hj Hr Hs. destruct (ws_complete _ _ ws45 Hs) as (t & Ht & <-). exists t. split; [| cbn; now rewrite app_nil_r].
    eapply (derives_cat T 46); [reflexivity |]. constructor; [| constructor; [exact Ht | constructor]]. eapply (derives_alt T 43); [reflexivity | exact Hj | exact Hr].
  Qed.
  Notation item_prod i := (op_of (fst (fst i)), of_term k (snd i)).
  Notation item_arith i := (op_of (fst (fst i)), of_prod k (snd i)).
  Definition is_read (o : nat) (f : tree -> option Z) (ts : list atok) (v : option Z) : Prop :=
    forall s, plain s -> firm s -> alex s = Some ts -> exists t, derives T o t /\ yield t = s /\ f t = v.
  Lemma sentences_trees :
    (forall ts v, LTerm k ts v -> is_read 46 (of_term k) ts v) /\
    (forall ts v, LProduct k ts v -> is_read 6 (of_prod k) ts v) /\
    (forall us l, LMuls k us l -> forall s, plain s -> firm s -> alex s = Some us -> exists m, Forall (item_ok T 50 52 46) m /\ flat_map item_yield m = s /\ map (fun i => item_prod i) m = l) /\
    (forall ts v, LExpr k ts v -> is_read 5 (of_arith k) ts v) /\
    (forall us l, LAdds k us l -> forall s, plain s -> firm s -> alex s = Some us -> exists m, Forall (item_ok T 59 61 6) m /\ flat_map item_yield m = s /\ map (fun i => item_arith i) m = l).
  Proof.
    apply (lalr_mutind k (fun ts v _ => is_read 46 (of_term k) ts v) (fun ts v _ => is_read 6 (of_prod k) ts v)
      (fun us l _ => forall s, plain s -> firm s -> alex s = Some us -> exists m, Forall (item_ok T 50 52 46) m /\ flat_map item_yield m = s /\ map (fun i => item_prod i) m = l)
      (fun ts v _ => is_read 5 (of_arith k) ts v)
      (fun us l _ => forall s, plain s -> firm s -> alex s = Some us -> exists m, Forall (item_ok T 59 61 6) m /\ flat_map item_yield m = s /\ map (fun i => item_arith i) m = l)).
    - intros w s P F E. destruct (alex_head s _ _ F E) as (w' & r & -> & Er & -> & Hn & Hd & _). apply plain_app in P as [_ P]. apply alex_none in Er; [| exact P].
      destruct (plus_complete _ _ _ _ _ _ is_digit w ids_pos digit_complete Hn Hd) as (x & Hx & <-). destruct (term_tree 0 7 r x eq_refl Hx Er) as (t & Ht & Ey). eauto.
    - intros w s P F E. destruct (head_symbol (chr "-") _ _ _ eq_refl P F E) as (b & r1 & -> & Hb & P1 & F1 & E1).
      destruct (alex_head r1 _ _ F1 E1) as (w' & r & -> & Er & -> & Hn & Hd & _). apply plain_app in P1 as [_ P1]. apply alex_none in Er; [| exact P1].
      destruct (plus_complete _ _ _ _ _ _ is_digit w ids_number digit_complete Hn Hd) as (x & Hx & <-). destruct (ws_complete _ _ ws30 Hb) as (q & Hq & <-).
      destruct (term_tree 1 36 r (NCat [NLit (lit "-"); q; x]) eq_refl) as (t & Ht & Ey); [| exact Er |].
      + eapply (derives_cat T 36); [reflexivity |]. constructor; [now eapply derives_lit |]. constructor; [exact Hq |]. constructor; [exact Hx | constructor].
      + eexists. split; [exact Ht |]. split; [| reflexivity]. rewrite Ey. cbn [yield flat_map]. now rewrite app_nil_r, <- !app_assoc.
    - intros ts v _ IH s P F E. destruct (head_symbol (chr "(") _ _ _ eq_refl P F E) as (b & r1 & -> & Hb & P1 & F1 & E1).
      destruct (split2 r1 ts [AClose] P1 F1 E1) as (a & r2 & -> & Ea & E2 & Pa & P2 & Fa & F2); [discriminate |].
      destruct (head_symbol (chr ")") _ _ _ eq_refl P2 F2 E2) as (b2 & r3 & -> & Hb2 & P3 & F3 & E3). apply firm_nil in E3 as ->; [| exact P3 | exact F3]. rewrite app_nil_r.
      destruct (IH a Pa Fa Ea) as (e & He & <- & Hv). destruct (ws_complete _ _ ws39 Hb) as (q & Hq & <-).
      destruct (term_tree 2 42 b2 (NCat [NLit (lit "("); q; NBox e; NLit (lit ")")]) eq_refl) as (t & Ht & Ey); [| exact Hb2 |].
      + eapply (derives_cat T 42); [reflexivity |]. constructor; [now eapply derives_lit |]. constructor; [exact Hq |]. constructor; [| constructor; [now eapply derives_lit | constructor]].
        eapply (derives_box T 40); [reflexivity |]. eapply (derives_fix T 4); [reflexivity | exact He].
      + eexists. split; [exact Ht |]. split; [| exact Hv]. rewrite Ey. cbn [yield flat_map]. now rewrite app_nil_r, <- !app_assoc.
    - intros ts t us l _ IHt Hu IHu s P F E. destruct (split2 s ts us P F E (muls_start _ _ Hu)) as (a & b & -> & Ea & Eb & Pa & Pb & Fa & Fb).
      destruct (IHt a Pa Fa Ea) as (y & Hy & <- & <-). destruct (IHu b Pb Fb Eb) as (m & Hm & <- & <-).
      exists (list_tree y m). split; [apply (list_iff T _ _ _ _ _ _ _ _ _ _ ids_prod); eauto |]. split; [apply list_yield |]. now rewrite of_prod_list, prod_rest_fold.
    - intros s P F E. apply firm_nil in E as ->; [| exact P | exact F]. exists []. repeat split. constructor.
    - intros op ts t us l _ IHt Hu IHu s P F E.
      assert (Hop : exists p c, derives T 50 p /\ yield p = [c] /\ op_of p = op /\ symbol c = Some (if op then ATimes else AOver)).
      { destruct op; [exists (NAlt 0 (NLit (lit "*"))) | exists (NAlt 1 (NLit (lit "/")))]; eexists; (split; [eapply (derives_alt T 50); [reflexivity | reflexivity | now eapply derives_lit] |]; repeat split). }
      destruct Hop as (p & c & Hp & Ep & <- & Hc). destruct (head_symbol c _ _ _ Hc P F E) as (b & r1 & -> & Hb & P1 & F1 & E1).
      destruct (split2 r1 ts us P1 F1 E1 (muls_start _ _ Hu)) as (a & r2 & -> & Ea & E2 & Pa & P2 & Fa & F2).
      destruct (IHt a Pa Fa Ea) as (y & Hy & <- & <-). destruct (IHu r2 P2 F2 E2) as (m & Hm & <- & <-). destruct (ws_complete _ _ ws52 Hb) as (q & Hq & <-).
      exists ((p, q, y) :: m). split; [constructor; [now repeat split | exact Hm] |]. split; [| reflexivity]. cbn [flat_map]. unfold item_yield at 1. cbn [fst snd]. rewrite Ep, <- !app_assoc. reflexivity.
    - intros ts t us l _ IHt Hu IHu s P F E. destruct (split2 s ts us P F E (adds_start _ _ Hu)) as (a & b & -> & Ea & Eb & Pa & Pb & Fa & Fb).
      destruct (IHt a Pa Fa Ea) as (y & Hy & <- & <-). destruct (IHu b Pb Fb Eb) as (m & Hm & <- & <-).
      exists (list_tree y m). split; [apply (list_iff T _ _ _ _ _ _ _ _ _ _ ids_arith); eauto |]. split; [apply list_yield |]. now rewrite of_arith_list, arith_rest_fold.
    - intros s P F E. apply firm_nil in E as ->; [| exact P | exact F]. exists []. repeat split. constructor.
    - intros op ts t us l _ IHt Hu IHu s P F E.
      assert (Hop : exists p c, derives T 59 p /\ yield p = [c] /\ op_of p = op /\ symbol c = Some (if op then APlus else AMinus)).
      { destruct op; [exists (NAlt 0 (NLit (lit "+"))) | exists (NAlt 1 (NLit (lit "-")))]; eexists; (split; [eapply (derives_alt T 59); [reflexivity | reflexivity | now eapply derives_lit] |]; repeat split). }
      destruct Hop as (p & c & Hp & Ep & <- & Hc). destruct (head_symbol c _ _ _ Hc P F E) as (b & r1 & -> & Hb & P1 & F1 & E1).
      destruct (split2 r1 ts us P1 F1 E1 (adds_start _ _ Hu)) as (a & r2 & -> & Ea & E2 & Pa & P2 & Fa & F2).
      destruct (IHt a Pa Fa Ea) as (y & Hy & <- & <-). destruct (IHu r2 P2 F2 E2) as (m & Hm & <- & <-). destruct (ws_complete _ _ ws61 Hb) as (q & Hq & <-).
      exists ((p, q, y) :: m). split; [constructor; [now repeat split | exact Hm] |]. split; [| reflexivity]. cbn [flat_map]. unfold item_yield at 1. cbn [fst snd]. rewrite Ep, <- !app_assoc. reflexivity.
  Qed.
  Lemma read_ast s v : plain s -> lalr_reads k s v -> exists t, derives T 0 t /\ yield t = s /\ of_ast k t = v.
  Proof.
    intros P (ts & E & He). destruct (strip s P) as (b & r & -> & Hb & F & E'). rewrite E' in E. apply plain_app in P as [_ P].
    destruct (proj1 (proj2 (proj2 (proj2 sentences_trees))) _ _ He r P F E) as (t & Ht & <- & <-). clear E E' He P F.
    induction Hb as [| c b <- _ (t' & Ht' & Ey & Ev)].
    - exists (NAlt 1 t). split; [| split; reflexivity]. eapply (derives_fix T 0); [reflexivity |]. eapply (derives_alt T 66); [reflexivity | reflexivity |].
      eapply (derives_fix T 4); [reflexivity | exact Ht].
    - exists (NAlt 0 (NCat [NLit (lit " "); NBox t'])). split; [| split; [cbn [yield flat_map]; rewrite app_nil_r, Ey; reflexivity | exact Ev]].
      eapply (derives_fix T 0); [reflexivity |]. eapply (derives_alt T 66); [reflexivity | reflexivity |]. eapply (derives_cat T 3); [reflexivity |].
      constructor; [now eapply derives_lit |]. constructor; [| constructor]. now eapply (derives_box T 2).
  Qed.
End Values.
