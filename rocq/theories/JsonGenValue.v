(** * JsonGenValue: what the conversion makes of a generated JSON tree. *)
From Coq Require Import String ZArith.
From Verif Require Export JsonGenFacts.
From Coq Require Import List Lia.
Open Scope list_scope.

Lemma ws_app a b : ws a -> ws b -> ws (a ++ b).
Proof. intros Ha Hb. apply Forall_app. auto. Qed.
Lemma seq6_inv a b c d e f ts : derives_seq T [a; b; c; d; e; f] ts ->
  exists x1 x2 x3 x4 x5 x6, ts = [x1; x2; x3; x4; x5; x6] /\ derives T a x1 /\ derives T b x2 /\ derives T c x3 /\ derives T d x4 /\ derives T e x5 /\ derives T f x6.
Proof.
  intros H. apply derives_seq_cons in H as (x1 & t1 & -> & H1 & H). apply derives_seq_cons in H as (x2 & t2 & -> & H2 & H). apply derives_seq_cons in H as (x3 & t3 & -> & H3 & H).
  apply derives_seq_cons in H as (x4 & t4 & -> & H4 & H). apply derives_seq_cons in H as (x5 & t5 & -> & H5 & H). apply derives_seq_cons in H as (x6 & t6 & -> & H6 & H).
  apply derives_seq_nil in H as ->. repeat eexists; assumption.
Qed.
(** Shapes of the trees of values. *)
Inductive value_tree : tree -> Prop :=
| vt_true : value_tree (NAlt 0 (NLit (lit "true")))
| vt_false : value_tree (NAlt 1 (NLit (lit "false")))
| vt_null : value_tree (NAlt 2 (NLit (lit "null")))
| vt_number t : derives T 61 t -> value_tree (NAlt 3 t)
| vt_string t : derives T 153 t -> value_tree (NAlt 4 t)
| vt_object0 w : derives T 154 w -> value_tree (NAlt 5 (NCat [NLit (lit "{"); w; NAlt 0 NEps; NLit (lit "}")]))
| vt_object w t : derives T 154 w -> derives T 160 t -> value_tree (NAlt 5 (NCat [NLit (lit "{"); w; NAlt 1 t; NLit (lit "}")]))
| vt_array0 w : derives T 154 w -> value_tree (NAlt 6 (NCat [NLit (lit "["); w; NAlt 0 NEps; NLit (lit "]")]))
| vt_array w t : derives T 154 w -> derives T 171 t -> value_tree (NAlt 6 (NCat [NLit (lit "["); w; NAlt 1 t; NLit (lit "]")])).
Lemma opt8 : opt_id 168 159 160. Proof. repeat eexists; reflexivity. Qed.
Lemma opt10 : opt_id 178 170 171. Proof. repeat eexists; reflexivity. Qed.
Lemma opt_id_iff o e v t : opt_id o e v -> (derives T o t <-> t = NAlt 0 NEps \/ exists t', t = NAlt 1 t' /\ derives T v t').
Proof. intros (p & f & n & a & c & Eo & Ee). exact (opt_iff T _ _ _ _ _ _ _ _ _ Eo Ee). Qed.
Lemma value_iff t : derives T 8 t <-> value_tree t.
Proof.
  split.
  - intros H. eapply fix_inv in H; [| reflexivity]. eapply alt_inv in H as (k & j & t' & -> & Hk & H); [| reflexivity].
    destruct k as [| [| [| [| [| [| [| k]]]]]]]; cbn [nth_error] in Hk.
    + injection Hk as <-. eapply lit_inv in H as ->; [| reflexivity]. exact vt_true.
    + injection Hk as <-. eapply lit_inv in H as ->; [| reflexivity]. exact vt_false.
    + injection Hk as <-. eapply lit_inv in H as ->; [| reflexivity]. exact vt_null.
    + injection Hk as <-. now constructor.
    + injection Hk as <-. now constructor.
    + injection Hk as <-. eapply cat4_inv in H as (a & w & o & b & -> & Ha & Hw & Ho & Hb); [| reflexivity].
      eapply lit_inv in Ha as ->; [| reflexivity]. eapply lit_inv in Hb as ->; [| reflexivity]. apply (opt_id_iff _ _ _ _ opt8) in Ho as [-> | (t & -> & Ht)]; now constructor.
    + injection Hk as <-. eapply cat4_inv in H as (a & w & o & b & -> & Ha & Hw & Ho & Hb); [| reflexivity].
      eapply lit_inv in Ha as ->; [| reflexivity]. eapply lit_inv in Hb as ->; [| reflexivity]. apply (opt_id_iff _ _ _ _ opt10) in Ho as [-> | (t & -> & Ht)]; now constructor.
    + destruct k; discriminate.
  - assert (Hcat : forall k j n p a b ca cb sa sb o x w, nth_error [9; 10; 11; 61; 153; 169; 179] k = Some j -> def_of T j = Some (DCat n p [a; 154; o; b]) ->
      def_of T a = Some (DLit sa ca) -> def_of T b = Some (DLit sb cb) -> derives T 154 w -> derives T o x -> derives T 8 (NAlt k (NCat [NLit sa; w; x; NLit sb]))).
    { intros k j n p a b ca cb sa sb o x w Hk Ej Ea Eb Hw Hx. eapply (derives_fix T 8); [reflexivity |]. eapply (derives_alt T 180); [reflexivity | exact Hk |].
      eapply derives_cat; [exact Ej |]. constructor; [eapply derives_lit; exact Ea |]. constructor; [exact Hw |]. constructor; [exact Hx |]. constructor; [eapply derives_lit; exact Eb | constructor]. }
    intros [| | | t' H | t' H | w Hw | w t' Hw H | w Hw | w t' Hw H].
    + eapply (derives_fix T 8); [reflexivity |]. eapply (derives_alt T 180); [reflexivity | reflexivity | now eapply derives_lit].
    + eapply (derives_fix T 8); [reflexivity |]. eapply (derives_alt T 180); [reflexivity | reflexivity | now eapply derives_lit].
    + eapply (derives_fix T 8); [reflexivity |]. eapply (derives_alt T 180); [reflexivity | reflexivity | now eapply derives_lit].
    + eapply (derives_fix T 8); [reflexivity |]. now eapply (derives_alt T 180).
    + eapply (derives_fix T 8); [reflexivity |]. now eapply (derives_alt T 180).
    + eapply (Hcat 5 169); try reflexivity; [exact Hw | apply (opt_id_iff _ _ _ _ opt8); auto].
    + eapply (Hcat 5 169); try reflexivity; [exact Hw | apply (opt_id_iff _ _ _ _ opt8); eauto].
    + eapply (Hcat 6 179); try reflexivity; [exact Hw | apply (opt_id_iff _ _ _ _ opt10); auto].
    + eapply (Hcat 6 179); try reflexivity; [exact Hw | apply (opt_id_iff _ _ _ _ opt10); eauto].
Qed.
(** Items: a value and white space, or a member. *)
Definition item_tree (x : tree) : Prop := exists v w, x = NCat [NBox v; w] /\ derives T 8 v /\ derives T 154 w.
Definition member_tree (x : tree) : Prop := exists k w1 w2 v w3, x = NCat [k; w1; NLit (lit ":"); w2; NBox v; w3] /\
  derives T 153 k /\ derives T 154 w1 /\ derives T 154 w2 /\ derives T 8 v /\ derives T 154 w3.
Lemma item_iff x : derives T 172 x <-> item_tree x.
Proof.
  split.
  - intros H. eapply cat2_inv in H as (b & w & -> & Hb & Hw); [| reflexivity]. eapply box_inv in Hb as (v & -> & Hv); [| reflexivity]. exists v, w. auto.
  - intros (v & w & -> & Hv & Hw). eapply (derives_cat T 172); [reflexivity |]. constructor; [now eapply (derives_box T 161) |]. constructor; [exact Hw | constructor].
Qed.
Lemma member_iff x : derives T 162 x <-> member_tree x.
Proof.
  split.
  - intros H. eapply cat_inv in H as (ts & -> & H); [| reflexivity]. apply seq6_inv in H as (k & w1 & c & w2 & b & w3 & -> & Hk & H1 & Hc & H2 & Hb & H3).
    eapply lit_inv in Hc as ->; [| reflexivity]. eapply box_inv in Hb as (v & -> & Hv); [| reflexivity]. exists k, w1, w2, v, w3. auto 10.
  - intros (k & w1 & w2 & v & w3 & -> & Hk & H1 & H2 & Hv & H3). eapply (derives_cat T 162); [reflexivity |]. constructor; [exact Hk |]. constructor; [exact H1 |].
    constructor; [now eapply derives_lit |]. constructor; [exact H2 |]. constructor; [now eapply (derives_box T 161) |]. constructor; [exact H3 | constructor].
Qed.
(** Lists of these: the items, each with the white space before it. *)
Definition comma_tree (p : tree * tree * tree) (P : tree -> Prop) : Prop := fst (fst p) = NLit (lit ",") /\ derives T 154 (snd (fst p)) /\ P (snd p).
Lemma items_iff t : derives T 171 t <-> exists y l, t = list_tree y l /\ item_tree y /\ Forall (fun p => comma_tree p item_tree) l.
Proof.
  rewrite (list_iff T _ _ _ _ _ _ _ _ _ _ ids_items). split; intros (y & l & -> & Hy & Hl); exists y, l; (split; [reflexivity |]); (split; [now apply item_iff |]); eapply Forall_impl; try exact Hl;
    intros [[p w] x] (H1 & H2 & H3); cbn [fst snd] in *; (split; [| split; [exact H2 | now apply item_iff]]); cbn [fst snd].
  - now eapply lit_inv in H1 as ->; [| reflexivity].
  - subst p. now eapply derives_lit.
Qed.
Lemma members_iff t : derives T 160 t <-> exists y l, t = list_tree y l /\ member_tree y /\ Forall (fun p => comma_tree p member_tree) l.
Proof.
  rewrite (list_iff T _ _ _ _ _ _ _ _ _ _ ids_members). split; intros (y & l & -> & Hy & Hl); exists y, l; (split; [reflexivity |]); (split; [now apply member_iff |]); eapply Forall_impl; try exact Hl;
    intros [[p w] x] (H1 & H2 & H3); cbn [fst snd] in *; (split; [| split; [exact H2 | now apply member_iff]]); cbn [fst snd].
  - now eapply lit_inv in H1 as ->; [| reflexivity].
  - subst p. now eapply derives_lit.
Qed.

Section Value.
  Context {num : Type}.
  Variables (number : tree -> option num) (str : tree -> option rstr) (D : dialect num).
  Notation of_value := (of_value number str).
  Notation of_items := (of_items number str).
  Notation of_members := (of_members number str).
  Notation of_ast_with := (of_ast_with number str).
  Definition of_item (x : tree) : option (value num) := match x with NCat [NBox v; _] => of_value v | _ => None end.
  Definition of_member (x : tree) : option (rstr * value num) :=
    match x with NCat [key; _; _; _; NBox v; _] => match str key, of_value v with Some k, Some y => Some (k, y) | _, _ => None end | _ => None end.
  Fixpoint all_some {A B} (f : A -> option B) (l : list A) : option (list B) :=
    match l with [] => Some [] | x :: l' => match f x, all_some f l' with Some y, Some m => Some (y :: m) | _, _ => None end end.
  Lemma of_items_list y l : item_tree y -> Forall (fun p => comma_tree p item_tree) l -> of_items (list_tree y l) = all_some of_item (y :: map snd l).
  Proof.
    revert y. induction l as [| [[p w] z] l IH]; intros y (v & w0 & -> & _) Hl.
    - reflexivity.
    - apply Forall_cons_iff in Hl as [(_ & _ & Hz) Hl]. cbn [snd] in Hz.
      change (match of_value v, of_items (list_tree z l) with Some x, Some m => Some (x :: m) | _, _ => None end = all_some of_item (NCat [NBox v; w0] :: map snd ((p, w, z) :: l))).
      rewrite IH by assumption. reflexivity.
  Qed.
  Lemma of_members_list y l : member_tree y -> Forall (fun p => comma_tree p member_tree) l -> of_members (list_tree y l) = all_some of_member (y :: map snd l).
  Proof.
    revert y. induction l as [| [[p w] z] l IH]; intros y (k & w1 & w2 & v & w3 & -> & _) Hl.
    - change (match str k, of_value v with Some a, Some x => Some [(a, x)] | _, _ => None end = all_some of_member [NCat [k; w1; NLit (lit ":"); w2; NBox v; w3]]).
      cbn [all_some of_member]. destruct (str k); [| reflexivity]. now destruct (of_value v).
    - apply Forall_cons_iff in Hl as [(_ & _ & Hz) Hl]. cbn [snd] in Hz.
      change (match str k, of_value v, of_members (list_tree z l) with Some a, Some x, Some m => Some ((a, x) :: m) | _, _, _ => None end = all_some of_member (NCat [k; w1; NLit (lit ":"); w2; NBox v; w3] :: map snd ((p, w, z) :: l))).
      rewrite IH by assumption. cbn [all_some map snd of_member]. destruct (str k); [| reflexivity]. now destruct (of_value v).
  Qed.
  Lemma part_size y l x : In x (y :: map snd l) -> tree_size x < tree_size (list_tree y l).
  Proof.
    revert y. induction l as [| [[p w] z] l IH]; intros y H.
    - destruct H as [<- | []]. cbn. lia.
    - destruct H as [<- | H]; [cbn; lia |]. apply (IH z) in H. cbn in *. lia.
  Qed.

  Section Sound.
    Hypothesis Hn : forall t n, derives T 61 t -> number t = Some n -> number_is D (yield t) n.
    Hypothesis Hs : forall t s, derives T 153 t -> str t = Some s -> Quoted D (yield t) s.
    Hypothesis He : forall w, ws w -> inside_empty D w.
    Lemma items_sound l : forall y a m, ws a ->
      (forall x v, In x (y :: map snd l) -> of_item x = Some v -> exists w b, yield x = w ++ b /\ Val D w v /\ ws b) ->
      Forall (fun p => comma_tree p item_tree) l -> all_some of_item (y :: map snd l) = Some m -> Elements D (a ++ yield (list_tree y l)) m.
    Proof.
      induction l as [| [[p w] z] l IH]; intros y a m Ha Hx Hl E.
      - cbn [all_some map] in E. destruct (of_item y) as [v |] eqn:Ey; [| discriminate]. injection E as <-. destruct (Hx y v (or_introl eq_refl) Ey) as (u & b & Eu & Hu & Hb).
        rewrite list_yield. cbn [flat_map]. rewrite app_nil_r, Eu. apply elements_one. now constructor.
      - change (match of_item y, all_some of_item (z :: map snd l) with Some v, Some m => Some (v :: m) | _, _ => None end = Some m) in E. destruct (of_item y) as [v |] eqn:Ey; [| discriminate].
        destruct (all_some of_item (z :: map snd l)) as [m' |] eqn:Em; [| discriminate]. injection E as <-. destruct (Hx y v (or_introl eq_refl) Ey) as (u & b & Eu & Hu & Hb).
        apply Forall_cons_iff in Hl as [(Hp & Hw & Hz) Hl]. cbn [fst snd] in *. subst p.
        assert (IH' := IH z (yield w) m' (ws_sound _ Hw) (fun x v H => Hx x v (or_intror H)) Hl Em).
        replace (a ++ yield (list_tree y ((NLit (lit ","), w, z) :: l))) with ((a ++ u ++ b) ++ lit "," ++ yield w ++ yield (list_tree z l)).
        + apply elements_more; [now constructor | exact IH'].
        + rewrite !list_yield. cbn [flat_map]. unfold item_yield at 2. cbn [fst snd yield]. rewrite Eu. now rewrite <- !app_assoc.
    Qed.
    Lemma members_sound l : forall y a m, ws a ->
      (forall x v, In x (y :: map snd l) -> of_member x = Some v -> exists q b w, yield x = q ++ b ++ lit ":" ++ w /\ Quoted D q (fst v) /\ ws b /\ Padded D w (snd v)) ->
      Forall (fun p => comma_tree p member_tree) l -> all_some of_member (y :: map snd l) = Some m -> Members D (a ++ yield (list_tree y l)) m.
    Proof.
      induction l as [| [[p w] z] l IH]; intros y a m Ha Hx Hl E.
      - cbn [all_some map] in E. destruct (of_member y) as [[k v] |] eqn:Ey; [| discriminate]. injection E as <-. destruct (Hx y _ (or_introl eq_refl) Ey) as (q & b & u & Eu & Hq & Hb & Hu).
        cbn [fst snd] in *. rewrite list_yield. cbn [flat_map]. rewrite app_nil_r, Eu. apply members_one. now constructor.
      - change (match of_member y, all_some of_member (z :: map snd l) with Some v, Some m => Some (v :: m) | _, _ => None end = Some m) in E. destruct (of_member y) as [[k v] |] eqn:Ey; [| discriminate].
        destruct (all_some of_member (z :: map snd l)) as [m' |] eqn:Em; [| discriminate]. injection E as <-. destruct (Hx y _ (or_introl eq_refl) Ey) as (q & b & u & Eu & Hq & Hb & Hu).
        apply Forall_cons_iff in Hl as [(Hp & Hw & Hz) Hl]. cbn [fst snd] in *. subst p.
        assert (IH' := IH z (yield w) m' (ws_sound _ Hw) (fun x v H => Hx x v (or_intror H)) Hl Em).
        replace (a ++ yield (list_tree y ((NLit (lit ","), w, z) :: l))) with ((a ++ q ++ b ++ lit ":" ++ u) ++ lit "," ++ yield w ++ yield (list_tree z l)).
        + apply members_more; [now constructor | exact IH'].
        + rewrite !list_yield. cbn [flat_map]. unfold item_yield at 2. cbn [fst snd yield]. rewrite Eu. now rewrite <- !app_assoc.
    Qed.
    Lemma value_sound : forall n t v, tree_size t <= n -> derives T 8 t -> of_value t = Some v -> Val D (yield t) v.
    Proof.
      induction n as [| n IH]; intros t v Hk H E; [destruct t; cbn in Hk; lia |].
      apply value_iff in H. destruct H as [| | | t' H | t' H | w Hw | w t' Hw H | w Hw | w t' Hw H].
      - cbn in E. injection E as <-. constructor.
      - cbn in E. injection E as <-. constructor.
      - cbn in E. injection E as <-. constructor.
      - change (option_map JNumber (number t') = Some v) in E. destruct (number t') as [x |] eqn:Ex; [| discriminate]. injection E as <-. apply val_number. exact (Hn t' x H Ex).
      - change (option_map JString (str t') = Some v) in E. destruct (str t') as [x |] eqn:Ex; [| discriminate]. injection E as <-. apply val_string. exact (Hs t' x H Ex).
      - cbn in E. injection E as <-. cbn [yield flat_map]. apply (val_object0 D (yield w)). now apply He, ws_sound.
      - change (option_map JObject (of_members t') = Some v) in E. destruct (of_members t') as [m |] eqn:Em; [| discriminate]. injection E as <-.
        change (Val D (lit "{" ++ yield w ++ yield t' ++ lit "}") (JObject m)). rewrite (app_assoc (yield w)). apply val_object.
        apply members_iff in H as (y & l & -> & Hy & Hl). rewrite of_members_list in Em by assumption. apply members_sound; [now apply ws_sound | | exact Hl | exact Em].
        intros x u Hx Ex. assert (Hm : member_tree x). { destruct Hx as [<- | Hx]; [exact Hy |]. apply in_map_iff in Hx as (p & <- & Hp). rewrite Forall_forall in Hl. now apply (Hl p Hp). }
        pose proof (part_size y l x Hx) as Hsz. destruct Hm as (k & w1 & w2 & vt & w3 & -> & Hk' & H1 & H2 & Hv & H3). cbn [of_member] in Ex.
        destruct (str k) as [ks |] eqn:Ek; [| discriminate]. destruct (of_value vt) as [vv |] eqn:Ev; [| discriminate]. injection Ex as <-. cbn [fst snd].
        exists (yield k), (yield w1), (yield w2 ++ yield vt ++ yield w3). cbn [yield flat_map]. rewrite app_nil_r. split; [reflexivity |]. split; [now apply Hs |]. split; [now apply ws_sound |].
        constructor; [now apply ws_sound | | now apply ws_sound]. apply IH; [cbn in Hk, Hsz; lia | exact Hv | exact Ev].
      - cbn in E. injection E as <-. cbn [yield flat_map]. apply (val_array0 D (yield w)). now apply He, ws_sound.
      - change (option_map JArray (of_items t') = Some v) in E. destruct (of_items t') as [m |] eqn:Em; [| discriminate]. injection E as <-.
        change (Val D (lit "[" ++ yield w ++ yield t' ++ lit "]") (JArray m)). rewrite (app_assoc (yield w)). apply val_array.
        apply items_iff in H as (y & l & -> & Hy & Hl). rewrite of_items_list in Em by assumption. apply items_sound; [now apply ws_sound | | exact Hl | exact Em].
        intros x u Hx Ex. assert (Hm : item_tree x). { destruct Hx as [<- | Hx]; [exact Hy |]. apply in_map_iff in Hx as (p & <- & Hp). rewrite Forall_forall in Hl. now apply (Hl p Hp). }
        pose proof (part_size y l x Hx) as Hsz. destruct Hm as (vt & w1 & -> & Hv & H1). cbn [of_item] in Ex.
        exists (yield vt), (yield w1). cbn [yield flat_map]. rewrite app_nil_r. split; [reflexivity |]. split; [| now apply ws_sound]. apply IH; [cbn in Hk, Hsz; lia | exact Hv | exact Ex].
    Qed.
    Theorem ast_sound t v : derives T 0 t -> of_ast_with t = Some v -> Padded D (yield t) v.
    Proof.
      intros H E. enough (G : forall n t, tree_size t <= n -> derives T 0 t -> of_ast_with t = Some v -> exists a w, yield t = a ++ w /\ ws a /\ Padded D w v).
      { destruct (G _ t (le_n _) H E) as (a & w & -> & Ha & [a' w' b v' Ha' Hv Hb]). rewrite app_assoc. constructor; [now apply ws_app | exact Hv | exact Hb]. }
      clear t H E. induction n as [| n IH]; intros t Hk H E; [destruct t; cbn in Hk; lia |]. eapply fix_inv in H; [| reflexivity]. eapply alt2_inv in H as [(x & -> & H) | (x & -> & H)]; [| | reflexivity].
      - eapply cat2_inv in H as (c & b & -> & Hc & Hb); [| reflexivity]. eapply box_inv in Hb as (t & -> & Ht); [| reflexivity]. apply (class_sound _ _ _ _ class_ws) in Hc as (d & Ed & Hd & _).
        apply IH in Ht as (a & w & Ew & Ha & Hw); [| cbn in Hk; lia | exact E]. exists (d :: a), w. cbn [yield flat_map]. rewrite Ed, Ew, app_nil_r. split; [reflexivity |]. split; [now constructor | exact Hw].
      - eapply cat2_inv in H as (t & w & -> & Ht & Hw); [| reflexivity]. cbn [yield flat_map]. rewrite app_nil_r. exists [], (yield t ++ yield w). split; [reflexivity |]. split; [constructor |].
        apply (padded D [] (yield t) (yield w)); [constructor | now apply (value_sound (tree_size t)) | now apply ws_sound].
    Qed.
  End Sound.

  Section Complete.
    Hypothesis Hn : forall w n, number_is D w n -> exists t, derives T 61 t /\ yield t = w /\ number t = Some n.
    Hypothesis Hs : forall w s, Quoted D w s -> exists t, derives T 153 t /\ yield t = w /\ str t = Some s.
    Hypothesis He : forall w, inside_empty D w -> ws w.
    Lemma texts_complete :
      (forall w v, Val D w v -> exists t, derives T 8 t /\ yield t = w /\ of_value t = Some v) /\
      (forall w v, Padded D w v -> exists a u b, w = a ++ u ++ b /\ ws a /\ ws b /\ exists t, derives T 8 t /\ yield t = u /\ of_value t = Some v) /\
      (forall w l, Elements D w l -> exists a y m, ws a /\ w = a ++ yield (list_tree y m) /\ item_tree y /\ Forall (fun p => comma_tree p item_tree) m /\ all_some of_item (y :: map snd m) = Some l) /\
      (forall w m, Member D w m -> exists a x, ws a /\ w = a ++ yield x /\ member_tree x /\ of_member x = Some m) /\
      (forall w l, Members D w l -> exists a y m, ws a /\ w = a ++ yield (list_tree y m) /\ member_tree y /\ Forall (fun p => comma_tree p member_tree) m /\ all_some of_member (y :: map snd m) = Some l).
    Proof.
      apply (texts_min num D).
      - exists (NAlt 2 (NLit (lit "null"))). split; [apply value_iff; constructor | split; reflexivity].
      - exists (NAlt 0 (NLit (lit "true"))). split; [apply value_iff; constructor | split; reflexivity].
      - exists (NAlt 1 (NLit (lit "false"))). split; [apply value_iff; constructor | split; reflexivity].
      - intros w n H. apply Hn in H as (t & Ht & <- & E). exists (NAlt 3 t). split; [apply value_iff; now constructor |]. split; [reflexivity |].
        change (option_map JNumber (number t) = Some (JNumber n)). now rewrite E.
      - intros w s H. apply Hs in H as (t & Ht & <- & E). exists (NAlt 4 t). split; [apply value_iff; now constructor |]. split; [reflexivity |].
        change (option_map (@JString num) (str t) = Some (JString s)). now rewrite E.
      - intros w H. apply He, ws_complete in H as (t & Ht & <-). exists (NAlt 6 (NCat [NLit (lit "["); t; NAlt 0 NEps; NLit (lit "]")])). split; [apply value_iff; now constructor |]. split; reflexivity.
      - intros w l _ (a & y & m & Ha & -> & Hy & Hm & E). apply ws_complete in Ha as (t & Ht & <-). exists (NAlt 6 (NCat [NLit (lit "["); t; NAlt 1 (list_tree y m); NLit (lit "]")])).
        split; [apply value_iff; constructor; [exact Ht | apply items_iff; eauto] |]. split; [cbn [yield flat_map]; now rewrite <- app_assoc |].
        change (option_map JArray (of_items (list_tree y m)) = Some (JArray l)). now rewrite of_items_list, E.
      - intros w H. apply He, ws_complete in H as (t & Ht & <-). exists (NAlt 5 (NCat [NLit (lit "{"); t; NAlt 0 NEps; NLit (lit "}")])). split; [apply value_iff; now constructor |]. split; reflexivity.
      - intros w l _ (a & y & m & Ha & -> & Hy & Hm & E). apply ws_complete in Ha as (t & Ht & <-). exists (NAlt 5 (NCat [NLit (lit "{"); t; NAlt 1 (list_tree y m); NLit (lit "}")])).
        split; [apply value_iff; constructor; [exact Ht | apply members_iff; eauto] |]. split; [cbn [yield flat_map]; now rewrite <- app_assoc |].
        change (option_map JObject (of_members (list_tree y m)) = Some (JObject l)). now rewrite of_members_list, E.
      - intros a w b v Ha _ H Hb. exists a, w, b. auto.
      - intros w v _ (a & u & b & -> & Ha & Hb & t & Ht & <- & E). apply ws_complete in Hb as (wb & Hwb & <-). exists a, (NCat [NBox t; wb]), []. split; [exact Ha |].
        split; [rewrite list_yield; cbn [yield flat_map]; now rewrite !app_nil_r |]. split; [exists t, wb; auto |]. split; [constructor |]. cbn [all_some map of_item]. now rewrite E.
      - intros w v w' l _ (a & u & b & -> & Ha & Hb & t & Ht & <- & E) _ (a' & y & m & Ha' & -> & Hy & Hm & E'). apply ws_complete in Hb as (wb & Hwb & <-). apply ws_complete in Ha' as (wa & Hwa & <-).
        exists a, (NCat [NBox t; wb]), ((NLit (lit ","), wa, y) :: m). split; [exact Ha |].
        split; [rewrite !list_yield; cbn [flat_map]; unfold item_yield at 2; cbn [fst snd yield flat_map]; now rewrite !app_nil_r, <- !app_assoc |]. split; [exists t, wb; auto |].
        split; [constructor; [split; [reflexivity | auto] | exact Hm] |].
        change (match of_value t, all_some of_item (y :: map snd m) with Some x, Some k => Some (x :: k) | _, _ => None end = Some (v :: l)). now rewrite E, E'.
      - intros a q k b w v Ha Hq Hb _ (a2 & u & b2 & -> & Ha2 & Hb2 & t & Ht & <- & E). apply ws_complete in Hb as (t1 & H1 & <-). apply ws_complete in Ha2 as (t2 & H2 & <-). apply ws_complete in Hb2 as (t3 & H3 & <-).
        apply Hs in Hq as (tk & Hk & <- & Ek). exists a, (NCat [tk; t1; NLit (lit ":"); t2; NBox t; t3]). split; [exact Ha |]. split; [cbn [yield flat_map]; now rewrite app_nil_r |].
        split; [exists tk, t1, t2, t, t3; auto 10 |]. cbn [of_member]. now rewrite Ek, E.
      - intros w m _ (a & x & Ha & -> & Hx & E). exists a, x, []. split; [exact Ha |]. split; [rewrite list_yield; cbn [flat_map]; now rewrite app_nil_r |]. split; [exact Hx |]. split; [constructor |].
        cbn [all_some map]. now rewrite E.
      - intros w m w' l _ (a & x & Ha & -> & Hx & E) _ (a' & y & n & Ha' & -> & Hy & Hm & E'). apply ws_complete in Ha' as (wa & Hwa & <-).
        exists a, x, ((NLit (lit ","), wa, y) :: n). split; [exact Ha |]. split; [rewrite !list_yield; cbn [flat_map]; unfold item_yield at 2; cbn [fst snd yield]; now rewrite <- !app_assoc |]. split; [exact Hx |].
        split; [constructor; [split; [reflexivity | auto] | exact Hm] |].
        change (match of_member x, all_some of_member (y :: map snd n) with Some x, Some k => Some (x :: k) | _, _ => None end = Some (m :: l)). now rewrite E, E'.
    Qed.
    Theorem ast_complete w v : Padded D w v -> exists t, derives T 0 t /\ yield t = w /\ of_ast_with t = Some v.
    Proof.
      intros H. apply texts_complete in H as (a & u & b & -> & Ha & Hb & t & Ht & <- & E). apply ws_complete in Hb as (wb & Hwb & <-). induction Ha as [| c a Hc _ (x & Hx & Ex & E')].
      - exists (NAlt 1 (NCat [t; wb])). split; [| split; [cbn [yield flat_map]; now rewrite app_nil_r | exact E]]. eapply (derives_fix T 0); [reflexivity |].
        eapply (derives_alt T 182); [reflexivity | reflexivity |]. eapply (derives_cat T 181); [reflexivity |]. constructor; [exact Ht |]. constructor; [exact Hwb | constructor].
      - destruct (class_complete _ _ _ c class_ws Hc) as (y & Hy & Ey & _). exists (NAlt 0 (NCat [y; NBox x])). split; [| split; [cbn [yield flat_map]; now rewrite Ey, app_nil_r, Ex | exact E']].
        eapply (derives_fix T 0); [reflexivity |]. eapply (derives_alt T 182); [reflexivity | reflexivity |]. eapply (derives_cat T 7); [reflexivity |]. constructor; [exact Hy |].
        constructor; [now eapply (derives_box T 6) | constructor].
    Qed.
  End Complete.

  (** A conversion that never fails on the leaves never fails. *)
  Section Total.
    Hypothesis Hn : forall t, derives T 61 t -> number t <> None.
    Hypothesis Hs : forall t, derives T 153 t -> str t <> None.
    Lemma all_some_total {A B} (f : A -> option B) l : (forall x, In x l -> f x <> None) -> all_some f l <> None.
    Proof.
      induction l as [| x l IH]; intros H; cbn [all_some]; [discriminate |]. specialize (IH (fun y Hy => H y (or_intror Hy))). specialize (H x (or_introl eq_refl)).
      destruct (f x); [| contradiction]. destruct (all_some f l); [discriminate | contradiction].
    Qed.
    Lemma value_total : forall n t, tree_size t <= n -> derives T 8 t -> of_value t <> None.
    Proof.
      induction n as [| n IH]; intros t Hk H; [destruct t; cbn in Hk; lia |].
      apply value_iff in H. destruct H as [| | | t' H | t' H | w Hw | w t' Hw H | w Hw | w t' Hw H]; try discriminate.
      - change (option_map JNumber (number t') <> None). specialize (Hn t' H). now destruct (number t').
      - change (option_map (@JString num) (str t') <> None). specialize (Hs t' H). now destruct (str t').
      - change (option_map JObject (of_members t') <> None). enough (E : of_members t' <> None) by now destruct (of_members t').
        apply members_iff in H as (y & l & -> & Hy & Hl). rewrite of_members_list by assumption. apply all_some_total. intros x Hx.
        assert (Hm : member_tree x). { destruct Hx as [<- | Hx]; [exact Hy |]. apply in_map_iff in Hx as (p & <- & Hp). rewrite Forall_forall in Hl. now apply (Hl p Hp). }
        pose proof (part_size y l x Hx) as Hsz. destruct Hm as (k & w1 & w2 & vt & w3 & -> & Hk' & H1 & H2 & Hv & H3). cbn [of_member]. specialize (Hs k Hk').
        destruct (str k); [| contradiction]. specialize (IH vt ltac:(cbn in Hk, Hsz; lia) Hv). now destruct (of_value vt).
      - change (option_map JArray (of_items t') <> None). enough (E : of_items t' <> None) by now destruct (of_items t').
        apply items_iff in H as (y & l & -> & Hy & Hl). rewrite of_items_list by assumption. apply all_some_total. intros x Hx.
        assert (Hm : item_tree x). { destruct Hx as [<- | Hx]; [exact Hy |]. apply in_map_iff in Hx as (p & <- & Hp). rewrite Forall_forall in Hl. now apply (Hl p Hp). }
        pose proof (part_size y l x Hx) as Hsz. destruct Hm as (vt & w1 & -> & Hv & H1). cbn [of_item]. apply IH; [cbn in Hk, Hsz; lia | exact Hv].
    Qed.
    Theorem ast_total t : derives T 0 t -> of_ast_with t <> None.
    Proof.
      enough (G : forall n t, tree_size t <= n -> derives T 0 t -> of_ast_with t <> None) by (intros; now apply (G (tree_size t))). clear t.
      induction n as [| n IH]; intros t Hk H; [destruct t; cbn in Hk; lia |]. eapply fix_inv in H; [| reflexivity]. eapply alt2_inv in H as [(x & -> & H) | (x & -> & H)]; [| | reflexivity].
      - eapply cat2_inv in H as (c & b & -> & Hc & Hb); [| reflexivity]. eapply box_inv in Hb as (t & -> & Ht); [| reflexivity]. apply (IH t); [cbn in Hk; lia | exact Ht].
      - eapply cat2_inv in H as (t & w & -> & Ht & Hw); [| reflexivity]. now apply (value_total (tree_size t)).
    Qed.
  End Total.
End Value.
