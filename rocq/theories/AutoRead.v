(** * AutoRead: the values of autonibble's types are the programs, with their
    white space. *)
From Coq Require Import String.
From Verif Require Export AutoFacts.
From Coq Require Import List Lia.
Open Scope list_scope.

(** ** Texts of token sequences *)
Definition nothing : token := TkOther call_site.
Lemma hd_app {A} (d : A) a b : a <> [] -> hd d (a ++ b) = hd d a.
Proof. now destruct a. Qed.
Lemma last_app {A} (d : A) a b : b <> [] -> last (a ++ b) d = last b d.
Proof.
  intros Hb. induction a as [| x a IH]; [reflexivity |]. cbn [app]. destruct (a ++ b) as [| y l] eqn:E; [apply app_eq_nil in E as [_ E]; now elim Hb |]. rewrite <- IH. reflexivity.
Qed.
Lemma last_cons {A} (d : A) x a : a <> [] -> last (x :: a) d = last a d.
Proof. now destruct a. Qed.
Lemma app_nonempty {A} (a b : list A) : a <> [] -> a ++ b <> [].
Proof. now destruct a. Qed.
Lemma text_nonempty ts w : tokens_text ts w -> ts <> [].
Proof. intros H. now destruct H. Qed.
Lemma one_text t w : tokens_text [t] w <-> token_text t w.
Proof. split; [intros H; now inversion H | apply text_one]. Qed.
Lemma text_app a : forall b w, a <> [] -> b <> [] ->
  (tokens_text (a ++ b) w <-> exists w1 g w2, w = w1 ++ g ++ w2 /\ tokens_text a w1 /\ apart (last a nothing) (hd nothing b) g /\ tokens_text b w2).
Proof.
  induction a as [| t a IH]; intros b w Ha Hb; [now elim Ha |]. destruct a as [| t2 a].
  - destruct b as [| t' b]; [now elim Hb |]. cbn [app last hd]. split.
    + intros H. inversion H; subst. do 3 eexists. split; [reflexivity |]. split; [now constructor |]. auto.
    + intros (w1 & g & w2 & -> & H1 & Hg & H2). apply one_text in H1. now constructor.
  - change ((t :: t2 :: a) ++ b) with (t :: t2 :: (a ++ b)). rewrite last_cons by discriminate. split.
    + intros H. inversion H as [| ? u g0 ? ? w0 Ht Hg0 Hr]; subst. apply IH in Hr as (w1 & g & w2 & -> & H1 & Hg & H2); [| discriminate | exact Hb].
      exists (u ++ g0 ++ w1), g, w2. split; [now rewrite <- !app_assoc |]. split; [now constructor |]. auto.
    + intros (w1 & g & w2 & -> & H1 & Hg & H2). inversion H1 as [| ? u g0 ? ? w0 Ht Hg0 Hr]; subst. rewrite <- !app_assoc. constructor; [exact Ht | exact Hg0 |].
      apply (IH b (w0 ++ g ++ w2)); [discriminate | exact Hb |]. exists w0, g, w2. auto.
Qed.
(** A separator needs no space. *)
Lemma text_punct_app c sp b w : c <> 33%N -> b <> [] ->
  (tokens_text (TkPunct c sp :: b) w <-> exists g w2, w = c :: g ++ w2 /\ gap g /\ tokens_text b w2).
Proof.
  intros Hc Hb. change (TkPunct c sp :: b) with ([TkPunct c sp] ++ b). rewrite text_app by (discriminate || exact Hb). cbn [last]. split.
  - intros (w1 & g & w2 & -> & H1 & [Hg _] & H2). apply one_text in H1. inversion H1; subst. exists g, w2. auto.
  - intros (g & w2 & -> & Hg & H2). exists [c], g, w2. split; [reflexivity |]. split; [apply one_text; constructor |]. split; [| exact H2]. split; [exact Hg |]. now intros [].
Qed.
Lemma text_bang_app sp b w : b <> [] -> (tokens_text (TkPunct 33%N sp :: b) w <-> exists g w2, w = 33%N :: g ++ w2 /\ gap g /\ tokens_text b w2).
Proof.
  intros Hb. change (TkPunct 33%N sp :: b) with ([TkPunct 33%N sp] ++ b). rewrite text_app by (discriminate || exact Hb). cbn [last]. split.
  - intros (w1 & g & w2 & -> & H1 & [Hg _] & H2). apply one_text in H1. inversion H1; subst. exists g, w2. auto.
  - intros (g & w2 & -> & Hg & H2). exists [33%N], g, w2. split; [reflexivity |]. split; [apply one_text; constructor |]. split; [| exact H2]. split; [exact Hg |]. now intros [].
Qed.
Lemma text_app_punct a c sp b w : c <> 33%N -> a <> [] ->
  (tokens_text (a ++ TkPunct c sp :: b) w <-> exists w1 g w2, w = w1 ++ g ++ w2 /\ tokens_text a w1 /\ gap g /\ tokens_text (TkPunct c sp :: b) w2).
Proof.
  intros Hc Ha. rewrite text_app by (exact Ha || discriminate). cbn [hd]. split.
  - intros (w1 & g & w2 & -> & H1 & [Hg _] & H2). exists w1, g, w2. auto.
  - intros (w1 & g & w2 & -> & H1 & Hg & H2). exists w1, g, w2. split; [reflexivity |]. split; [exact H1 |]. split; [| exact H2]. split; [exact Hg |]. cbn. intros _ E. now elim Hc.
Qed.
Lemma text_terms a b w : a <> [] -> b <> [] -> ends (last a nothing) -> starts (hd nothing b) ->
  (tokens_text (a ++ b) w <-> exists w1 g w2, w = w1 ++ g ++ w2 /\ tokens_text a w1 /\ gap g /\ g <> [] /\ tokens_text b w2).
Proof.
  intros Ha Hb He Hs. rewrite text_app by assumption. split.
  - intros (w1 & g & w2 & -> & H1 & [Hg Hn] & H2). exists w1, g, w2. auto 6.
  - intros (w1 & g & w2 & -> & H1 & Hg & Hn & H2). exists w1, g, w2. split; [reflexivity |]. split; [exact H1 |]. split; [| exact H2]. split; auto.
Qed.

(** ** The first and the last token of a phrase *)
Definition edges (L : level) (ts : list token) : Prop := ts <> [] /\ (L <> LvExpr -> starts (hd nothing ts)) /\ ends (last ts nothing).
Lemma edges_app L a b : edges L a -> (b = [] \/ (b <> [] /\ ends (last b nothing))) -> edges L (a ++ b).
Proof.
  intros (Hn & Hs & He) [-> | [Hb Hbe]]; [rewrite app_nil_r; repeat split; assumption |]. split; [now apply app_nonempty |]. rewrite hd_app, last_app by assumption. auto.
Qed.
Lemma edges_flat a ts : edges LvTerm a -> Forall (fun n => edges LvTerm (to_tokens n)) ts -> edges LvCall (a ++ flat_map to_tokens ts).
Proof.
  intros Ha H. revert a Ha. induction H as [| n ts Hn _ IH]; intros a Ha; cbn [flat_map]; [rewrite app_nil_r; destruct Ha as (H1 & H2 & H3); repeat split; auto; intros _; now apply H2 |].
  destruct (IH _ Hn) as (H1 & H2 & H3). destruct Ha as (A1 & A2 & A3). split; [now apply app_nonempty |]. rewrite hd_app, last_app by assumption. split; [intros _; now apply A2 | exact H3].
Qed.
Lemma edges_pairs L L' sep ps : L <> LvExpr -> L' <> LvExpr -> punctuated (fun n => edges L (to_tokens n)) ps -> edges L' (pairs_tokens to_tokens sep ps).
Proof.
  intros HL HL' H. induction H as [n (H1 & H2 & H3) | n sp l (H1 & H2 & H3) _ (I1 & I2 & I3)]; cbn [pairs_tokens].
  - rewrite !app_nil_r. repeat split; auto.
  - split; [now apply app_nonempty |]. rewrite hd_app by exact H1. split; [auto |]. rewrite last_app by discriminate. cbn [app]. now rewrite last_cons.
Qed.
Lemma punctuated_impl (P Q : node -> Prop) ps : punctuated P ps -> Forall (fun x => P (fst x) -> Q (fst x)) ps -> punctuated Q ps.
Proof.
  intros H. induction H as [x Hx | x sp l Hx _ IH]; intros F; apply Forall_cons_iff in F as [F1 F2]; constructor; auto.
Qed.
Lemma shape_edges n : forall L, shape L n -> edges L (to_tokens n).
Proof.
  induction n as [sp | i | v sp | b t IH | sp e IH | ts IH | ps IH | c l IH | ps IH | l args r e IH] using node_ind'; intros L H; cbn [to_tokens].
  - repeat split; try discriminate; exact Logic.I.
  - repeat split; try discriminate; exact Logic.I.
  - repeat split; try discriminate; exact Logic.I.
  - assert (Ht : shape LvTerm t) by (inversion H; subst; [assumption | match goal with H : shape LvAlt _ |- _ => inversion H end]).
    destruct (IH _ Ht) as (H1 & _ & H3). split; [discriminate |]. split; [intros _; reflexivity |]. now rewrite last_cons.
  - repeat split; try discriminate; exact Logic.I.
  - assert (Ht : L = LvCall /\ exists t l, ts = t :: l /\ shape LvTerm t /\ Forall (shape LvTerm) l).
    { inversion H; subst; [split; eauto | match goal with H : shape LvAlt _ |- _ => inversion H end]. }
    destruct Ht as (-> & t & l & -> & Ht & Hl). apply Forall_cons_iff in IH as [IHt IHl]. cbn [flat_map]. apply edges_flat; [now apply IHt |].
    rewrite Forall_forall in *. auto.
  - assert (Ht : L = LvCat /\ punctuated (shape LvCall) ps).
    { inversion H; subst; [split; auto | match goal with H : shape LvAlt _ |- _ => inversion H end]. }
    destruct Ht as [-> Ht]. apply (edges_pairs LvCall); [discriminate | discriminate |]. apply (punctuated_impl (shape LvCall)); [exact Ht |]. rewrite Forall_forall in *. auto.
  - assert (Ht : L = LvLabelled /\ shape LvCat c).
    { inversion H; subst; [split; auto | match goal with H : shape LvAlt _ |- _ => inversion H end]. }
    destruct Ht as [-> Ht]. destruct (IH _ Ht) as (H1 & H2 & H3). apply edges_app; [split; [exact H1 |]; split; [intros _; apply H2; discriminate | exact H3] |].
    destruct l as [[sp i] |]; [right; split; [discriminate | exact Logic.I] | now left].
  - assert (Ht : punctuated (shape LvLabelled) ps).
    { inversion H; subst; [assumption | match goal with H : shape LvAlt _ |- _ => inversion H; subst end; assumption]. }
    assert (E : edges LvAlt (pairs_tokens to_tokens "|" ps)).
    { apply (edges_pairs LvLabelled); [discriminate | discriminate |]. apply (punctuated_impl (shape LvLabelled)); [exact Ht |]. rewrite Forall_forall in *. auto. }
    destruct E as (E1 & E2 & E3). split; [exact E1 |]. split; [intros _; apply E2; discriminate | exact E3].
  - assert (Ht : L = LvExpr /\ shape LvAlt e).
    { inversion H; subst; [match goal with H : shape LvAlt _ |- _ => inversion H end | split; auto]. }
    destruct Ht as [-> Ht]. destruct (IH _ Ht) as (H1 & _ & H3). split; [discriminate |]. split; [intros X; now elim X |]. rewrite last_cons; [| now destruct args].
    rewrite last_app by discriminate. now rewrite last_cons.
Qed.

(** ** Names *)
Definition ident_tree (id : nat) (x : tree) (i : ident) : Prop := derives T id x /\ id_raw i = false /\ id_sym i = yield x.
Lemma ident_named id x i : word_id id -> ident_tree id x i -> named i /\ token_text (TkIdent i) (yield x).
Proof. intros Hid (Hx & Hr & Hs). split; [split; [exact Hr |]; rewrite Hs; now apply (word_sound id) |]. rewrite <- Hs. now constructor. Qed.
Lemma named_ident id i : word_id id -> named i -> exists x, ident_tree id x i /\ yield x = id_sym i.
Proof. intros Hid [Hr Hw]. destruct (word_complete id _ Hid Hw) as (x & Hx & E). exists x. split; [split; auto | exact E]. Qed.
Inductive names : tree -> list ident -> Prop :=
| names_last x o i : ident_tree 95 x i -> (o = NAlt 0 NEps \/ exists w, derives T 17 w /\ o = NAlt 1 (NCat [w; NAlt 0 NEps])) -> names (NCat [x; o]) [i]
| names_more x w t i l : ident_tree 95 x i -> derives T 17 w -> names t l -> names (NCat [x; NAlt 1 (NCat [w; NAlt 1 (NBox t)])]) (i :: l).
Lemma names_derives t l : names t l -> derives T 22 t.
Proof.
  intros H. induction H as [x o i (Hx & _) Ho | x w t i l (Hx & _) Hw _ IH].
  - eapply (derives_fix T 22); [reflexivity |]. eapply (derives_cat T 102); [reflexivity |]. constructor; [exact Hx |]. constructor; [| constructor].
    destruct Ho as [-> | (w & Hw & ->)].
    + eapply (derives_alt T 101); [reflexivity | reflexivity | now apply derives_eps].
    + eapply (derives_alt T 101); [reflexivity | reflexivity |]. eapply (derives_cat T 100); [reflexivity |]. constructor; [exact Hw |]. constructor; [| constructor].
      eapply (derives_alt T 99); [reflexivity | reflexivity | now apply derives_eps].
  - eapply (derives_fix T 22); [reflexivity |]. eapply (derives_cat T 102); [reflexivity |]. constructor; [exact Hx |]. constructor; [| constructor].
    eapply (derives_alt T 101); [reflexivity | reflexivity |]. eapply (derives_cat T 100); [reflexivity |]. constructor; [exact Hw |]. constructor; [| constructor].
    eapply (derives_alt T 99); [reflexivity | reflexivity |]. now eapply (derives_box T 98).
Qed.
Lemma names_exists t : derives T 22 t -> exists l, names t l.
Proof.
  enough (G : forall n t, tree_size t <= n -> derives T 22 t -> exists l, names t l) by (intros; now apply (G (tree_size t))). clear t.
  induction n as [| n IH]; intros t Hk H; [destruct t; cbn in Hk; lia |]. eapply fix_inv in H; [| reflexivity]. eapply cat2_inv in H as (x & o & -> & Hx & Ho); [| reflexivity].
  assert (Hi : ident_tree 95 x (Ident false (yield x) call_site)) by (repeat split; assumption).
  eapply opt_iff in Ho; [| reflexivity | reflexivity]. destruct Ho as [-> | (t' & -> & H)]; [eexists; apply names_last; [exact Hi | now left] |].
  eapply cat2_inv in H as (w & o & -> & Hw & Ho); [| reflexivity]. eapply opt_iff in Ho; [| reflexivity | reflexivity]. destruct Ho as [-> | (t' & -> & H)]; [eexists; apply names_last; [exact Hi | right; eauto] |].
  eapply box_inv in H as (t & -> & Ht); [| reflexivity]. cbn in Hk. destruct (IH t) as [l Hl]; [lia | exact Ht |]. eexists. apply names_more; eauto.
Qed.
Lemma names_text t l : names t l -> Forall named l /\ l <> [] /\ exists w g, yield t = w ++ g /\ tokens_text (map TkIdent l) w /\ gap g.
Proof.
  intros H. induction H as [x o i Hx Ho | x w t i l Hx Hw _ (IH1 & IH2 & v & g & E & Hv & Hg)]; (apply ident_named in Hx as [Hi Hx]; [| wid]).
  - split; [auto |]. split; [discriminate |]. exists (yield x), (yield o). cbn [yield flat_map]. rewrite app_nil_r. split; [reflexivity |]. split; [now constructor |].
    destruct Ho as [-> | (w & Hw & ->)]; [constructor |]. cbn [yield flat_map]. rewrite !app_nil_r. now apply ws_sound.
  - split; [auto |]. split; [discriminate |]. destruct (ws_sound _ Hw) as [Hn Hgw]. exists (yield x ++ yield w ++ v), g. cbn [yield flat_map]. rewrite !app_nil_r, E, <- !app_assoc. split; [reflexivity |].
    split; [| exact Hg]. destruct l as [| j l]; [now elim IH2 |]. cbn [map]. constructor; [exact Hx | split; auto | exact Hv].
Qed.
Lemma names_complete l w g : l <> [] -> Forall named l -> tokens_text (map TkIdent l) w -> gap g -> exists t, names t l /\ yield t = w ++ g.
Proof.
  revert w. induction l as [| i l IH]; intros w Hl Hn Hw Hg; [now elim Hl |]. apply Forall_cons_iff in Hn as [Hi Hn]. destruct (named_ident 95 i) as (x & Hx & Ex); [wid | exact Hi |].
  destruct l as [| j l].
  - cbn [map] in Hw. apply one_text in Hw. inversion Hw; subst. destruct g as [| c g].
    + exists (NCat [x; NAlt 0 NEps]). split; [apply names_last; auto |]. cbn [yield flat_map]. now rewrite !app_nil_r.
    + destruct (ws_complete (c :: g)) as (s & Hs & Es); [discriminate | exact Hg |]. exists (NCat [x; NAlt 1 (NCat [s; NAlt 0 NEps])]). split; [apply names_last; eauto |].
      cbn [yield flat_map]. now rewrite !app_nil_r, Es, Ex.
  - cbn [map] in Hw. inversion Hw as [| ? u g0 ? ? w0 Ht [Hg0 Hne] Hr]; subst. inversion Ht; subst. destruct (ws_complete g0) as (s & Hs & Es); [now apply Hne | exact Hg0 |].
    destruct (IH w0) as (t & Ht' & Et); [discriminate | exact Hn | exact Hr | exact Hg |]. exists (NCat [x; NAlt 1 (NCat [s; NAlt 1 (NBox t)])]). split; [now apply names_more |].
    cbn [yield flat_map]. now rewrite !app_nil_r, Es, Ex, Et, <- !app_assoc.
Qed.

(** ** Expressions *)
Definition type_of (L : level) : nat := match L with LvTerm => 110 | LvCall => 109 | LvCat => 108 | LvLabelled => 214 | LvAlt => 107 | LvExpr => 106 end.
Definition sep_of (L : level) : string := match L with LvCall => "." | _ => "|" end.
Definition sep_ows (L : level) : nat := match L with LvCall => 199 | _ => 217 end.
Definition rest_type (L : level) : nat := match L with LvCall => 202 | _ => 220 end.
Inductive reads : level -> tree -> node -> Prop :=
| reads_eps sp : reads LvTerm (NAlt 0 (NLit (lit "_"))) (NEpsilon sp)
| reads_lit c v sp : contents c v -> reads LvTerm (NAlt 1 (NCat [NLit [34%N]; c; NLit [34%N]])) (NLiteral v sp)
| reads_paren o e n sp : derives T 179 o -> reads LvExpr e n -> reads LvTerm (NAlt 2 (NCat [NLit (lit "("); o; NBox e; NLit (lit ")")])) (NParen sp n)
| reads_fix o t n sp : derives T 183 o -> reads LvTerm t n -> reads LvTerm (NAlt 3 (NCat [NLit (lit "!"); o; NBox t])) (NFix sp n)
| reads_var x i : ident_tree 188 x i -> reads LvTerm (NAlt 4 x) (NIdent i)
| reads_call t n rest ns : reads LvTerm t n -> reads_terms rest ns -> reads LvCall (NCat [t; rest]) (NCall (n :: ns))
| reads_cat t n rest p ps : reads LvCall t n -> reads_rest LvCall rest p ps -> reads LvCat (NCat [t; rest]) (NCatP ((n, p) :: ps))
| reads_plain t n : reads LvCat t n -> reads LvLabelled (NCat [t; NAlt 0 NEps]) (NLabelled n None)
| reads_label t n o1 x o2 sp i : reads LvCat t n -> derives T 206 o1 -> ident_tree 209 x i -> derives T 211 o2 ->
    reads LvLabelled (NCat [t; NAlt 1 (NCat [NLit (lit ":"); o1; x; o2])]) (NLabelled n (Some (sp, i)))
| reads_alt t n rest p ps : reads LvLabelled t n -> reads_rest LvLabelled rest p ps -> reads LvAlt (NCat [t; rest]) (NAltP ((n, p) :: ps))
| reads_expr t n : reads LvAlt t n -> reads LvExpr (NAlt 0 t) n
| reads_lambda o1 ns o2 t n l r arg args : derives T 223 o1 -> names ns (arg :: args) -> derives T 225 o2 -> reads LvAlt t n ->
    reads LvExpr (NAlt 1 (NCat [NLit (lit "/"); o1; ns; NLit (lit "/"); o2; t])) (NLambda l (arg :: args) r n)
with reads_terms : tree -> list node -> Prop :=
| terms_none : reads_terms (NAlt 0 NEps) []
| terms_space w : derives T 17 w -> reads_terms (NAlt 1 (NCat [w; NAlt 0 NEps])) []
| terms_more w t n rest ns : derives T 17 w -> reads LvTerm t n -> reads_terms rest ns -> reads_terms (NAlt 1 (NCat [w; NAlt 1 (NBox (NCat [t; rest]))])) (n :: ns)
with reads_rest : level -> tree -> option span -> list (node * option span) -> Prop :=
| rest_none L : reads_rest L (NAlt 0 NEps) None []
| rest_more L o t n rest p ps sp : derives T (sep_ows L) o -> reads L t n -> reads_rest L rest p ps ->
    reads_rest L (NAlt 1 (NCat [NLit (lit (sep_of L)); o; NBox (NCat [t; rest])])) (Some sp) ((n, p) :: ps).
Scheme reads_mut := Induction for reads Sort Prop
  with reads_terms_mut := Induction for reads_terms Sort Prop
  with reads_rest_mut := Induction for reads_rest Sort Prop.
Combined Scheme reads_ind3 from reads_mut, reads_terms_mut, reads_rest_mut.

(** *** They are values of the types. *)
Definition listed (L : level) : Prop := L = LvCall \/ L = LvLabelled.
Ltac leaf := first [now eapply derives_lit | now apply derives_eps | assumption].
Ltac seq := repeat (constructor; [leaf |]); try constructor.
Lemma reads_derives_all :
  (forall L t n, reads L t n -> derives T (type_of L) t) /\ (forall t ns, reads_terms t ns -> derives T 195 t) /\
  (forall L t p ps, reads_rest L t p ps -> listed L -> derives T (rest_type L) t).
Proof.
  apply reads_ind3; try (intros; cbn [type_of] in *).
  - eapply (derives_fix T 110); [reflexivity |]. eapply (derives_alt T 189); [reflexivity | reflexivity | leaf].
  - apply contents_derives in c0. eapply (derives_fix T 110); [reflexivity |]. eapply (derives_alt T 189); [reflexivity | reflexivity |]. eapply (derives_cat T 177); [reflexivity |]. seq.
  - eapply (derives_fix T 110); [reflexivity |]. eapply (derives_alt T 189); [reflexivity | reflexivity |]. eapply (derives_cat T 181); [reflexivity |].
    constructor; [leaf |]. constructor; [leaf |]. constructor; [now eapply (derives_box T 180) |]. seq.
  - eapply (derives_fix T 110); [reflexivity |]. eapply (derives_alt T 189); [reflexivity | reflexivity |]. eapply (derives_cat T 185); [reflexivity |].
    constructor; [leaf |]. constructor; [leaf |]. constructor; [now eapply (derives_box T 184) | constructor].
  - eapply (derives_fix T 110); [reflexivity |]. eapply (derives_alt T 189); [reflexivity | reflexivity | apply i0].
  - eapply (derives_fix T 109); [reflexivity |]. eapply (derives_cat T 196); [reflexivity |]. seq.
  - eapply (derives_fix T 108); [reflexivity |]. eapply (derives_cat T 203); [reflexivity |]. constructor; [leaf |]. constructor; [apply H0; now left | constructor].
  - eapply (derives_cat T 214); [reflexivity |]. constructor; [leaf |]. constructor; [| constructor]. eapply (derives_alt T 213); [reflexivity | reflexivity | leaf].
  - destruct i0 as [Hx _]. eapply (derives_cat T 214); [reflexivity |]. constructor; [leaf |]. constructor; [| constructor]. eapply (derives_alt T 213); [reflexivity | reflexivity |].
    eapply (derives_cat T 212); [reflexivity |]. seq.
  - eapply (derives_fix T 107); [reflexivity |]. eapply (derives_cat T 221); [reflexivity |]. constructor; [leaf |]. constructor; [apply H0; now right | constructor].
  - eapply (derives_fix T 106); [reflexivity |]. eapply (derives_alt T 227); [reflexivity | reflexivity | leaf].
  - apply names_derives in n0. eapply (derives_fix T 106); [reflexivity |]. eapply (derives_alt T 227); [reflexivity | reflexivity |]. eapply (derives_cat T 226); [reflexivity |]. seq.
  - eapply (derives_alt T 195); [reflexivity | reflexivity | leaf].
  - eapply (derives_alt T 195); [reflexivity | reflexivity |]. eapply (derives_cat T 194); [reflexivity |]. constructor; [leaf |]. constructor; [| constructor].
    eapply (derives_alt T 193); [reflexivity | reflexivity | leaf].
  - eapply (derives_alt T 195); [reflexivity | reflexivity |]. eapply (derives_cat T 194); [reflexivity |]. constructor; [leaf |]. constructor; [| constructor].
    eapply (derives_alt T 193); [reflexivity | reflexivity |]. eapply (derives_box T 192); [reflexivity |]. eapply (derives_fix T 109); [reflexivity |]. eapply (derives_cat T 196); [reflexivity |]. seq.
  - destruct H as [-> | ->]; [eapply (derives_alt T 202) | eapply (derives_alt T 220)]; [reflexivity | reflexivity | leaf | reflexivity | reflexivity | leaf].
  - specialize (H0 H1). destruct H1 as [-> | ->]; cbn [rest_type sep_ows sep_of type_of] in *.
    + eapply (derives_alt T 202); [reflexivity | reflexivity |]. eapply (derives_cat T 201); [reflexivity |]. constructor; [leaf |]. constructor; [leaf |]. constructor; [| constructor].
      eapply (derives_box T 200); [reflexivity |]. eapply (derives_fix T 108); [reflexivity |]. eapply (derives_cat T 203); [reflexivity |]. seq.
    + eapply (derives_alt T 220); [reflexivity | reflexivity |]. eapply (derives_cat T 219); [reflexivity |]. constructor; [leaf |]. constructor; [leaf |]. constructor; [| constructor].
      eapply (derives_box T 218); [reflexivity |]. eapply (derives_fix T 107); [reflexivity |]. eapply (derives_cat T 221); [reflexivity |]. seq.
Qed.

(** *** Every value is read. *)
Lemma seq6 {ids a b c d e f} {ts : list tree} : ids = [a; b; c; d; e; f] -> derives_seq T ids ts -> exists x1 x2 x3 x4 x5 x6, ts = [x1; x2; x3; x4; x5; x6] /\
  derives T a x1 /\ derives T b x2 /\ derives T c x3 /\ derives T d x4 /\ derives T e x5 /\ derives T f x6.
Proof.
  intros -> H. do 6 (apply derives_seq_cons in H as (? & ? & -> & ? & H)). apply derives_seq_nil in H as ->. do 6 eexists. eauto 10.
Qed.
Lemma reads_exists_all : forall m,
  (forall L t, tree_size t <= m -> derives T (type_of L) t -> exists n, reads L t n) /\
  (forall t, tree_size t <= m -> derives T 195 t -> exists ns, reads_terms t ns) /\
  (forall L t, listed L -> tree_size t <= m -> derives T (rest_type L) t -> exists p ps, reads_rest L t p ps).
Proof.
  induction m as [| m (IH1 & IH2 & IH3)].
  { repeat split; intros; destruct t; cbn in *; lia. }
  split; [| split].
  - intros L t Hk H. destruct L; cbn [type_of] in H.
    + (* term *)
      eapply fix_inv in H; [| reflexivity]. eapply alt_inv in H as (k & j & t' & -> & Hj & H); [| reflexivity]. cbn [tree_size] in Hk.
      destruct k as [| [| [| [| [| k]]]]]; cbn [nth_error] in Hj; [| | | | | now destruct k]; injection Hj as <-.
      * lit_in H. exists (NEpsilon call_site). constructor.
      * eapply cat3_inv in H as (a & b & c & -> & Ha & Hb & Hc); [| reflexivity]. lit_in Ha. lit_in Hc. apply contents_sound in Hb as [v Hv]. exists (NLiteral v call_site). now constructor.
      * eapply cat4_inv in H as (a & b & c & d & -> & Ha & Hb & Hc & Hd); [| reflexivity]. lit_in Ha. lit_in Hd. eapply box_inv in Hc as (e & -> & He); [| reflexivity].
        cbn [tree_size list_sum map fold_right] in Hk. destruct (IH1 LvExpr e) as [n Hn]; [cbn in Hk; lia | exact He |]. exists (NParen call_site n). now constructor.
      * eapply cat3_inv in H as (a & b & c & -> & Ha & Hb & Hc); [| reflexivity]. lit_in Ha. eapply box_inv in Hc as (e & -> & He); [| reflexivity].
        destruct (IH1 LvTerm e) as [n Hn]; [cbn in Hk; lia | exact He |]. exists (NFix call_site n). now constructor.
      * exists (NIdent (Ident false (yield t') call_site)). constructor. repeat split. exact H.
    + eapply fix_inv in H; [| reflexivity]. eapply cat2_inv in H as (x & y & -> & Hx & Hy); [| reflexivity].
      destruct (IH1 LvTerm x) as [n Hn]; [cbn in Hk; lia | exact Hx |]. destruct (IH2 y) as [ns Hns]; [cbn in Hk; lia | exact Hy |]. exists (NCall (n :: ns)). now constructor.
    + eapply fix_inv in H; [| reflexivity]. eapply cat2_inv in H as (x & y & -> & Hx & Hy); [| reflexivity].
      destruct (IH1 LvCall x) as [n Hn]; [cbn in Hk; lia | exact Hx |]. destruct (IH3 LvCall y) as (p & ps & Hps); [now left | cbn in Hk; lia | exact Hy |]. exists (NCatP ((n, p) :: ps)). now constructor.
    + eapply cat2_inv in H as (x & y & -> & Hx & Hy); [| reflexivity].
      destruct (IH1 LvCat x) as [n Hn]; [cbn in Hk; lia | exact Hx |]. eapply opt_iff in Hy; [| reflexivity | reflexivity]. destruct Hy as [-> | (t' & -> & H)]; [exists (NLabelled n None); now constructor |].
      eapply cat4_inv in H as (a & b & c & d & -> & Ha & Hb & Hc & Hd); [| reflexivity]. lit_in Ha. exists (NLabelled n (Some (call_site, Ident false (yield c) call_site))). constructor; try assumption. repeat split. exact Hc.
    + eapply fix_inv in H; [| reflexivity]. eapply cat2_inv in H as (x & y & -> & Hx & Hy); [| reflexivity].
      destruct (IH1 LvLabelled x) as [n Hn]; [cbn in Hk; lia | exact Hx |]. destruct (IH3 LvLabelled y) as (p & ps & Hps); [now right | cbn in Hk; lia | exact Hy |]. exists (NAltP ((n, p) :: ps)). now constructor.
    + eapply fix_inv in H; [| reflexivity]. eapply alt2_inv in H; [| reflexivity]. destruct H as [(t' & -> & H) | (t' & -> & H)].
      * destruct (IH1 LvAlt t') as [n Hn]; [cbn in Hk; lia | exact H |]. exists n. now constructor.
      * eapply cat_inv in H as (ts & -> & H); [| reflexivity]. apply (seq6 eq_refl) in H as (a & b & c & d & e & f & -> & Ha & Hb & Hc & Hd & He & Hf). lit_in Ha. lit_in Hd.
        destruct (names_exists _ Hc) as [l Hl]. destruct (IH1 LvAlt f) as [n Hn]; [cbn in Hk; lia | exact Hf |]. destruct (names_text _ _ Hl) as (_ & Hne & _). destruct l as [| i l]; [now elim Hne |].
        exists (NLambda call_site (i :: l) call_site n). now constructor.
  - intros t Hk H. eapply opt_iff in H; [| reflexivity | reflexivity]. destruct H as [-> | (t' & -> & H)]; [eexists; constructor |].
    eapply cat2_inv in H as (w & o & -> & Hw & Ho); [| reflexivity]. eapply opt_iff in Ho; [| reflexivity | reflexivity]. destruct Ho as [-> | (t' & -> & H)]; [eexists; now constructor |].
    eapply box_inv in H as (t & -> & H); [| reflexivity]. eapply fix_inv in H; [| reflexivity]. eapply cat2_inv in H as (x & y & -> & Hx & Hy); [| reflexivity].
    destruct (IH1 LvTerm x) as [n Hn]; [cbn in Hk; lia | exact Hx |]. destruct (IH2 y) as [ns Hns]; [cbn in Hk; lia | exact Hy |]. eexists. now constructor; eauto.
  - intros L t HL Hk H. destruct HL as [-> | ->]; cbn [rest_type] in H; (eapply opt_iff in H; [| reflexivity | reflexivity]); (destruct H as [-> | (t' & -> & H)]; [do 2 eexists; constructor |]);
      (eapply cat3_inv in H as (a & b & c & -> & Ha & Hb & Hc); [| reflexivity]); lit_in Ha; (eapply box_inv in Hc as (e & -> & He); [| reflexivity]); (eapply fix_inv in He; [| reflexivity]);
      (eapply cat2_inv in He as (x & y & -> & Hx & Hy); [| reflexivity]).
    + destruct (IH1 LvCall x) as [n Hn]; [cbn in Hk; lia | exact Hx |]. destruct (IH3 LvCall y) as (p & ps & Hps); [now left | cbn in Hk; lia | exact Hy |].
      do 2 eexists. apply (rest_more LvCall b x n y p ps call_site); assumption.
    + destruct (IH1 LvLabelled x) as [n Hn]; [cbn in Hk; lia | exact Hx |]. destruct (IH3 LvLabelled y) as (p & ps & Hps); [now right | cbn in Hk; lia | exact Hy |].
      do 2 eexists. apply (rest_more LvLabelled b x n y p ps call_site); assumption.
Qed.

(** *** What is read is written there. *)
Lemma pt_pairs sep n sp l : pairs_tokens to_tokens sep ((n, Some sp) :: l) = to_tokens n ++ pt sep sp :: pairs_tokens to_tokens sep l.
Proof. reflexivity. Qed.
Lemma sep_pt L sp : exists c, c <> 33%N /\ pt (sep_of L) sp = TkPunct c sp /\ lit (sep_of L) = [c].
Proof. destruct L; (eexists; split; [| split; reflexivity]; discriminate). Qed.
Lemma ows_gap o t : In o ows_ids -> derives T o t -> gap (yield t).
Proof. intros H. apply ows_sound. now apply is_ows. Qed.
Ltac in_ows := unfold ows_ids; cbn [In]; tauto.
Lemma gap_app a b : gap a -> gap b -> gap (a ++ b).
Proof. intros. now apply Forall_app. Qed.
Lemma punctuated_nonempty P l : punctuated P l -> l <> [].
Proof. now destruct 1. Qed.
Lemma reads_text_all :
  (forall L t n, reads L t n -> shape L n /\ exists w g, yield t = w ++ g /\ tokens_text (to_tokens n) w /\ gap g /\ (L = LvTerm -> g = [])) /\
  (forall t ns, reads_terms t ns -> Forall (shape LvTerm) ns /\
    forall a w0, a <> [] -> ends (last a nothing) -> tokens_text a w0 -> exists w g, w0 ++ yield t = w ++ g /\ tokens_text (a ++ flat_map to_tokens ns) w /\ gap g) /\
  (forall L t p ps, reads_rest L t p ps -> listed L -> forall n0 w0 g0, shape L n0 -> tokens_text (to_tokens n0) w0 -> gap g0 ->
    punctuated (shape L) ((n0, p) :: ps) /\ exists w g, w0 ++ g0 ++ yield t = w ++ g /\ tokens_text (pairs_tokens to_tokens (sep_of L) ((n0, p) :: ps)) w /\ gap g).
Proof.
  apply reads_ind3.
  - intros sp. split; [constructor |]. exists (lit "_"), []. split; [reflexivity |]. split; [| split; [constructor | auto]]. apply one_text. now apply (text_word (Ident false (lit "_") sp)).
  - intros c v sp Hc. apply contents_text in Hc as [Hv Hc]. split; [now constructor |]. exists ([34%N] ++ yield c ++ [34%N]), []. cbn [yield flat_map]. split; [now rewrite !app_nil_r |].
    split; [| split; [constructor | auto]]. apply one_text. now constructor.
  - intros o e n sp Ho _ (Hs & w & g & E & Hw & Hg & _). split; [now constructor |]. exists (lit "(" ++ yield o ++ w ++ g ++ lit ")"), []. cbn [yield flat_map]. rewrite E, !app_nil_r, <- !app_assoc.
    split; [reflexivity |]. split; [| split; [constructor | auto]]. apply one_text. constructor; [apply (ows_gap 179); [in_ows | exact Ho] | exact Hw | exact Hg].
  - intros o t n sp Ho _ (Hs & w & g & E & Hw & Hg & H0). rewrite (H0 eq_refl), app_nil_r in E. split; [now constructor |]. exists (lit "!" ++ yield o ++ w), []. cbn [yield flat_map]. rewrite E, !app_nil_r.
    split; [reflexivity |]. split; [| split; [constructor | auto]]. cbn [to_tokens]. apply (text_bang_app sp); [now apply (text_nonempty _ w) |]. exists (yield o), w. split; [reflexivity |]. split; [| exact Hw].
    apply (ows_gap 183); [in_ows | exact Ho].
  - intros x i Hx. apply ident_named in Hx as [Hi Hx]; [| wid]. split; [now constructor |]. exists (yield x), []. cbn [yield]. rewrite app_nil_r. split; [reflexivity |].
    split; [| split; [constructor | auto]]. now apply one_text.
  - intros t n rest ns _ (Hs & w & g & E & Hw & Hg & H0) _ (Hss & IH). rewrite (H0 eq_refl), app_nil_r in E. destruct (shape_edges _ _ Hs) as (N & _ & En). destruct (IH _ w N En Hw) as (w' & g' & E' & Hw' & Hg').
    split; [now constructor |]. exists w', g'. cbn [yield flat_map]. rewrite app_nil_r, E, E'. split; [reflexivity |]. split; [exact Hw' |]. split; [exact Hg' | discriminate].
  - intros t n rest p ps _ (Hs & w & g & E & Hw & Hg & _) _ IH. destruct (IH (or_introl eq_refl) n w g Hs Hw Hg) as (Hp & w' & g' & E' & Hw' & Hg').
    split; [now constructor |]. exists w', g'. cbn [yield flat_map]. rewrite app_nil_r, E, <- E', <- app_assoc. split; [reflexivity |]. split; [exact Hw' |]. split; [exact Hg' | discriminate].
  - intros t n _ (Hs & w & g & E & Hw & Hg & _). split; [constructor; [exact Hs | discriminate] |]. exists w, g. cbn [yield flat_map to_tokens]. rewrite !app_nil_r. split; [exact E |]. split; [exact Hw |]. split; [exact Hg | discriminate].
  - intros t n o1 x o2 sp i _ (Hs & w & g & E & Hw & Hg & _) H1 Hx H2. apply ident_named in Hx as [Hi Hx]; [| wid]. split; [constructor; [exact Hs | now intros ? ? [= <- <-]] |].
    exists (w ++ g ++ lit ":" ++ yield o1 ++ yield x), (yield o2). cbn [yield flat_map to_tokens]. rewrite !app_nil_r, E, <- !app_assoc. split; [reflexivity |].
    split; [| split; [apply (ows_gap 211); [in_ows | exact H2] | discriminate]]. apply text_app_punct; [discriminate | now apply (text_nonempty _ w) |]. do 3 eexists. split; [reflexivity |]. split; [exact Hw |]. split; [exact Hg |].
    apply text_punct_app; [discriminate | discriminate |]. exists (yield o1), (yield x). split; [reflexivity |]. split; [apply (ows_gap 206); [in_ows | exact H1] | now apply one_text].
  - intros t n rest p ps _ (Hs & w & g & E & Hw & Hg & _) _ IH. destruct (IH (or_intror eq_refl) n w g Hs Hw Hg) as (Hp & w' & g' & E' & Hw' & Hg').
    split; [now constructor |]. exists w', g'. cbn [yield flat_map]. rewrite app_nil_r, E, <- E', <- app_assoc. split; [reflexivity |]. split; [exact Hw' |]. split; [exact Hg' | discriminate].
  - intros t n _ (Hs & w & g & E & Hw & Hg & _). split; [now constructor |]. exists w, g. split; [exact E |]. split; [exact Hw |]. split; [exact Hg | discriminate].
  - intros o1 ns o2 t n l r arg args H1 Hn H2 _ (Hs & w & g & E & Hw & Hg & _). apply names_text in Hn as (Hn & _ & v & g' & Ev & Hv & Hg'). apply Forall_cons_iff in Hn as [Ha Hn]. split; [now constructor |].
    exists (lit "/" ++ yield o1 ++ v ++ g' ++ lit "/" ++ yield o2 ++ w), g. cbn [yield flat_map to_tokens]. rewrite !app_nil_r, E, Ev, <- !app_assoc. split; [reflexivity |]. split; [| split; [exact Hg | discriminate]].
    apply text_punct_app; [discriminate | now destruct args |]. exists (yield o1), (v ++ g' ++ lit "/" ++ yield o2 ++ w). split; [reflexivity |]. split; [apply (ows_gap 223); [in_ows | exact H1] |].
    apply text_app_punct; [discriminate | discriminate |]. exists v, g', (lit "/" ++ yield o2 ++ w). split; [reflexivity |]. split; [exact Hv |]. split; [exact Hg' |].
    apply text_punct_app; [discriminate | now apply (text_nonempty _ w) |]. exists (yield o2), w. split; [reflexivity |]. split; [apply (ows_gap 225); [in_ows | exact H2] | exact Hw].
  - split; [constructor |]. intros a w0 Ha He Hw. exists w0, []. cbn [yield flat_map]. rewrite !app_nil_r. repeat split; [exact Hw | constructor].
  - intros s Hs. split; [constructor |]. intros a w0 Ha He Hw. exists w0, (yield s). cbn [yield flat_map]. rewrite !app_nil_r. repeat split; [exact Hw | now apply ws_sound].
  - intros s t n rest ns Hs _ (Hsh & w & g & E & Hw & Hg & H0) _ (Hss & IH). rewrite (H0 eq_refl), app_nil_r in E. split; [now constructor |]. intros a w0 Ha He Hw0.
    destruct (shape_edges _ _ Hsh) as (N & Sn & En). destruct (ws_sound _ Hs) as [Hne Hgs].
    destruct (IH (a ++ to_tokens n) (w0 ++ yield s ++ w)) as (w' & g' & E' & Hw' & Hg').
    + now apply app_nonempty.
    + now rewrite last_app.
    + apply text_terms; [exact Ha | exact N | exact He | apply Sn; discriminate |]. do 3 eexists. split; [reflexivity |]. auto.
    + exists w', g'. cbn [yield flat_map]. rewrite !app_nil_r, E, <- E', <- !app_assoc. split; [reflexivity |]. split; [now rewrite app_assoc | exact Hg'].
  - intros L _ n0 w0 g0 Hs Hw Hg. split; [now constructor |]. exists w0, g0. cbn [yield pairs_tokens app]. rewrite !app_nil_r. auto.
  - intros L o t n rest p ps sp Ho _ (Hsh & w & g & E & Hw & Hg & _) _ IH HL n0 w0 g0 Hs Hw0 Hg0. destruct (IH HL n w g Hsh Hw Hg) as (Hp & w' & g' & E' & Hw' & Hg'). split; [now constructor |].
    destruct (sep_pt L sp) as (c & Hc & Ep & El). exists (w0 ++ g0 ++ c :: yield o ++ w'), g'. cbn [yield flat_map]. rewrite !app_nil_r, El, E. split; [rewrite <- !app_assoc; cbn [app]; rewrite <- !app_assoc, E'; reflexivity |].
    split; [| exact Hg']. rewrite pt_pairs, Ep. apply text_app_punct; [exact Hc | now apply (text_nonempty _ w0) |]. do 3 eexists. split; [reflexivity |]. split; [exact Hw0 |]. split; [exact Hg0 |].
    apply text_punct_app; [exact Hc | now apply (text_nonempty _ w') |]. exists (yield o), w'. split; [reflexivity |]. split; [| exact Hw']. apply (ows_gap (sep_ows L)); [destruct L; in_ows | exact Ho].
Qed.

(** *** What is written is read. *)
Definition readable (L : level) (n : node) : Prop :=
  forall w g, shape L n -> tokens_text (to_tokens n) w -> gap g -> (L = LvTerm -> g = []) -> exists t, reads L t n /\ yield t = w ++ g.
Lemma terms_complete ts : Forall (readable LvTerm) ts -> Forall (shape LvTerm) ts -> forall a w g, a <> [] -> ends (last a nothing) -> tokens_text (a ++ flat_map to_tokens ts) w -> gap g ->
  exists w0 rest, tokens_text a w0 /\ reads_terms rest ts /\ w0 ++ yield rest = w ++ g.
Proof.
  induction ts as [| n ts IH]; intros R S a w g Ha He Hw Hg.
  - cbn [flat_map] in Hw. rewrite app_nil_r in Hw. exists w. destruct g as [| c g].
    + exists (NAlt 0 NEps). split; [exact Hw |]. split; [constructor | reflexivity].
    + destruct (ws_complete (c :: g)) as (s & Hs & Es); [discriminate | exact Hg |]. exists (NAlt 1 (NCat [s; NAlt 0 NEps])). split; [exact Hw |]. split; [now constructor |]. cbn [yield flat_map]. now rewrite !app_nil_r, Es.
  - apply Forall_cons_iff in R as [Rn R]. apply Forall_cons_iff in S as [Sn S]. cbn [flat_map] in Hw. destruct (shape_edges _ _ Sn) as (N & Se & En).
    apply text_app in Hw as (w1 & g1 & w2 & -> & H1 & [Hg1 Hne] & H2); [| exact Ha | now apply app_nonempty]. rewrite hd_app in Hne by exact N. specialize (Hne He (Se ltac:(discriminate))).
    destruct (IH R S _ w2 g N En H2 Hg) as (w0 & rest & Hw0 & Hr & E). destruct (Rn w0 [] Sn Hw0) as (t & Ht & Et); [constructor | reflexivity |]. rewrite app_nil_r in Et.
    destruct (ws_complete g1) as (s & Hs & Es); [exact Hne | exact Hg1 |]. exists w1, (NAlt 1 (NCat [s; NAlt 1 (NBox (NCat [t; rest]))])). split; [exact H1 |]. split; [now constructor |].
    cbn [yield flat_map]. rewrite !app_nil_r, Es, Et, E, <- !app_assoc. reflexivity.
Qed.
Lemma rest_complete L ps : listed L -> forall n0 p w g, Forall (fun x => readable L (fst x)) ps -> punctuated (shape L) ((n0, p) :: ps) -> tokens_text (pairs_tokens to_tokens (sep_of L) ((n0, p) :: ps)) w -> gap g ->
  exists w0 g0 rest, tokens_text (to_tokens n0) w0 /\ gap g0 /\ reads_rest L rest p ps /\ w0 ++ g0 ++ yield rest = w ++ g.
Proof.
  intros HL. induction ps as [| [n q] ps IH]; intros n0 p w g R S Hw Hg.
  - inversion S; subst; [| match goal with H : punctuated _ [] |- _ => inversion H end]. cbn [pairs_tokens] in Hw. rewrite !app_nil_r in Hw. exists w, g, (NAlt 0 NEps). cbn [yield]. rewrite app_nil_r. split; [exact Hw |]. split; [exact Hg |]. split; [constructor | reflexivity].
  - inversion S as [| ? sp ? S0 S1]; subst. apply Forall_cons_iff in R as [Rn R]. cbn [fst] in Rn. rewrite pt_pairs in Hw. destruct (sep_pt L sp) as (c & Hc & Ep & El). rewrite Ep in Hw.
    assert (Sn : shape L n) by (inversion S1; assumption).
    destruct (shape_edges _ _ S0) as (N0 & _ & _). destruct (shape_edges _ _ Sn) as (N1 & _ & _).
    apply text_app_punct in Hw as (w1 & g1 & w2 & -> & H1 & Hg1 & H2); [| exact Hc | exact N0].
    apply text_punct_app in H2 as (g2 & w3 & -> & Hg2 & H3); [| exact Hc | cbn [pairs_tokens]; now apply app_nonempty].
    destruct (IH n q w3 g R S1 H3 Hg) as (w0 & g0 & rest & Hw0 & Hg0 & Hr & E). destruct (Rn w0 g0 Sn Hw0 Hg0) as (t & Ht & Et); [destruct HL as [-> | ->]; discriminate |].
    destruct (ows_complete (sep_ows L) g2) as (o & Ho & Eo); [apply is_ows; destruct L; in_ows | exact Hg2 |].
    exists w1, g1, (NAlt 1 (NCat [NLit (lit (sep_of L)); o; NBox (NCat [t; rest])])). split; [exact H1 |]. split; [exact Hg1 |]. split; [now constructor |].
    cbn [yield flat_map]. rewrite !app_nil_r, Eo, Et, El, <- !app_assoc, E. cbn [app]. rewrite <- !app_assoc. reflexivity.
Qed.
Lemma reads_complete n : forall L, readable L n.
Proof.
  induction n as [sp | i | v sp | b t IH | sp e IH | ts IH | ps IH | c l IH | ps IH | l args r e IH] using node_ind'; intros L w g S Hw Hg H0.
  1-5: assert (L = LvTerm) as -> by (inversion S; subst; [reflexivity | match goal with H : shape LvAlt _ |- _ => inversion H end]); rewrite (H0 eq_refl), app_nil_r; clear H0 Hg g.
  - cbn [to_tokens] in Hw. apply one_text in Hw. inversion Hw; subst. eexists. split; [constructor | reflexivity].
  - cbn [to_tokens] in Hw. apply one_text in Hw. inversion Hw; subst. assert (Hi : named i) by (now inversion S). destruct (named_ident 188 i) as (x & Hx & Ex); [wid | exact Hi |]. exists (NAlt 4 x). split; [now constructor | exact Ex].
  - cbn [to_tokens] in Hw. apply one_text in Hw. inversion Hw; subst. assert (Hv : v <> []) by (now inversion S). destruct (contents_complete v w0) as (t & Ht & Et); [exact Hv | assumption |].
    eexists. split; [constructor; exact Ht |]. cbn [yield flat_map]. now rewrite Et.
  - assert (St : shape LvTerm t) by (now inversion S). destruct (shape_edges _ _ St) as (N & _ & _). cbn [to_tokens] in Hw. apply (text_bang_app b) in Hw as (g & w2 & -> & Hg & H2); [| exact N].
    destruct (IH LvTerm w2 [] St H2) as (x & Hx & Ex); [constructor | reflexivity |]. rewrite app_nil_r in Ex. destruct (ows_complete 183 g) as (o & Ho & Eo); [apply is_ows; in_ows | exact Hg |].
    eexists. split; [constructor; [exact Ho | exact Hx] |]. cbn [yield flat_map]. now rewrite Eo, Ex, app_nil_r.
  - assert (Se : shape LvExpr e) by (now inversion S). cbn [to_tokens] in Hw. apply one_text in Hw. inversion Hw as [| | | ? ? g1 w1 g2 Hg1 Hw1 Hg2]; subst.
    destruct (IH LvExpr w1 g2 Se Hw1 Hg2) as (x & Hx & Ex); [discriminate |]. destruct (ows_complete 179 g1) as (o & Ho & Eo); [apply is_ows; in_ows | exact Hg1 |].
    eexists. split; [constructor; [exact Ho | exact Hx] |]. cbn [yield flat_map]. now rewrite Eo, Ex, app_nil_r, <- !app_assoc.
  - assert (Ht : L = LvCall /\ exists t l, ts = t :: l /\ shape LvTerm t /\ Forall (shape LvTerm) l).
    { inversion S; subst; [split; eauto | match goal with H : shape LvAlt _ |- _ => inversion H end]. }
    destruct Ht as (-> & t & l & -> & St & Sl). apply Forall_cons_iff in IH as [IHt IHl]. destruct (shape_edges _ _ St) as (N & _ & En). cbn [to_tokens flat_map] in Hw.
    destruct (terms_complete l) with (a := to_tokens t) (w := w) (g := g) as (w0 & rest & Hw0 & Hr & E); try assumption; [rewrite Forall_forall in *; auto |].
    destruct (IHt LvTerm w0 [] St Hw0) as (x & Hx & Ex); [constructor | reflexivity |]. rewrite app_nil_r in Ex. eexists. split; [constructor; [exact Hx | exact Hr] |]. cbn [yield flat_map]. now rewrite Ex, app_nil_r, E.
  - assert (Ht : L = LvCat /\ punctuated (shape LvCall) ps).
    { inversion S; subst; [split; auto | match goal with H : shape LvAlt _ |- _ => inversion H end]. }
    destruct Ht as [-> Sp]. destruct ps as [| [n p] ps]; [inversion Sp |]. apply Forall_cons_iff in IH as [IHn IH]. cbn [to_tokens] in Hw.
    destruct (rest_complete LvCall ps (or_introl eq_refl) n p w g) as (w0 & g0 & rest & Hw0 & Hg0 & Hr & E); try assumption; [rewrite Forall_forall in *; auto |].
    destruct (IHn LvCall w0 g0) as (x & Hx & Ex); [now inversion Sp | exact Hw0 | exact Hg0 | discriminate |]. eexists. split; [constructor; [exact Hx | exact Hr] |]. cbn [yield flat_map]. now rewrite Ex, app_nil_r, <- app_assoc, E.
  - assert (Ht : L = LvLabelled /\ shape LvCat c /\ forall sp i, l = Some (sp, i) -> named i).
    { inversion S; subst; [split; auto | match goal with H : shape LvAlt _ |- _ => inversion H end]. }
    destruct Ht as (-> & Sc & Sl). cbn [to_tokens] in Hw. destruct (shape_edges _ _ Sc) as (N & _ & _). destruct l as [[sp i] |].
    + apply text_app_punct in Hw as (w1 & g1 & w2 & -> & H1 & Hg1 & H2); [| discriminate | exact N]. apply text_punct_app in H2 as (g2 & w3 & -> & Hg2 & H3); [| discriminate | discriminate].
      apply one_text in H3. inversion H3; subst. destruct (IH LvCat w1 g1 Sc H1 Hg1) as (x & Hx & Ex); [discriminate |]. destruct (named_ident 209 i) as (y & Hy & Ey); [wid | now apply (Sl sp) |].
      destruct (ows_complete 206 g2) as (o1 & Ho1 & Eo1); [apply is_ows; in_ows | exact Hg2 |]. destruct (ows_complete 211 g) as (o2 & Ho2 & Eo2); [apply is_ows; in_ows | exact Hg |].
      eexists. split; [apply reads_label; [exact Hx | exact Ho1 | exact Hy | exact Ho2] |]. cbn [yield flat_map]. rewrite !app_nil_r, Ex, Ey, Eo1, Eo2, <- !app_assoc. cbn [app]. now rewrite <- !app_assoc.
    + rewrite app_nil_r in Hw. destruct (IH LvCat w g Sc Hw Hg) as (x & Hx & Ex); [discriminate |]. eexists. split; [apply reads_plain; exact Hx |]. cbn [yield flat_map]. now rewrite !app_nil_r, Ex.
  - assert (Ht : (L = LvAlt \/ L = LvExpr) /\ punctuated (shape LvLabelled) ps).
    { inversion S; subst; [split; auto | match goal with H : shape LvAlt _ |- _ => inversion H; subst end; auto]. }
    destruct Ht as [HL Sp]. destruct ps as [| [n p] ps]; [inversion Sp |]. apply Forall_cons_iff in IH as [IHn IH]. cbn [to_tokens] in Hw.
    destruct (rest_complete LvLabelled ps (or_intror eq_refl) n p w g) as (w0 & g0 & rest & Hw0 & Hg0 & Hr & E); try assumption; [rewrite Forall_forall in *; auto |].
    destruct (IHn LvLabelled w0 g0) as (x & Hx & Ex); [now inversion Sp | exact Hw0 | exact Hg0 | discriminate |].
    assert (A : reads LvAlt (NCat [x; rest]) (NAltP ((n, p) :: ps))) by now constructor.
    assert (Y : yield (NCat [x; rest]) = w ++ g) by (cbn [yield flat_map]; now rewrite Ex, app_nil_r, <- app_assoc, E).
    destruct HL as [-> | ->]; [eauto |]. exists (NAlt 0 (NCat [x; rest])). split; [now constructor | exact Y].
  - assert (Ht : L = LvExpr /\ shape LvAlt e /\ exists arg as', args = arg :: as' /\ Forall named (arg :: as')).
    { inversion S; subst; [match goal with H : shape LvAlt _ |- _ => inversion H end | split; [auto |]; split; [auto |]; eauto 6]. }
    destruct Ht as (-> & Se & arg & as' & -> & Hn). destruct (shape_edges _ _ Se) as (N & _ & _). cbn [to_tokens] in Hw.
    apply text_punct_app in Hw as (g1 & w1 & -> & Hg1 & H1); [| discriminate | discriminate].
    apply text_app_punct in H1 as (w2 & g2 & w3 & -> & H2 & Hg2 & H3); [| discriminate | discriminate].
    apply text_punct_app in H3 as (g3 & w4 & -> & Hg3 & H4); [| discriminate | exact N].
    destruct (IH LvAlt w4 g Se H4 Hg) as (x & Hx & Ex); [discriminate |].
    destruct (names_complete (arg :: as') w2 g2) as (y & Hy & Ey); [discriminate | exact Hn | exact H2 | exact Hg2 |].
    destruct (ows_complete 223 g1) as (o1 & Ho1 & Eo1); [apply is_ows; in_ows | exact Hg1 |]. destruct (ows_complete 225 g3) as (o2 & Ho2 & Eo2); [apply is_ows; in_ows | exact Hg3 |].
    eexists. split; [apply reads_lambda; [exact Ho1 | exact Hy | exact Ho2 | exact Hx] |]. cbn [yield flat_map]. rewrite !app_nil_r, Ex, Ey, Eo1, Eo2, <- !app_assoc. cbn [app lit]. rewrite <- !app_assoc. cbn [app]. now rewrite <- !app_assoc.
Qed.

(** ** Programs *)
Inductive reads_stmt : tree -> stmt -> Prop :=
| reads_goal k s e n o semi : derives T 17 s -> reads LvExpr e n -> derives T 234 o ->
    reads_stmt (NAlt 1 (NCat [NLit (lit "match"); s; e; NLit (lit ";"); o])) (SGoal k n semi)
| reads_let k s ns nm args o1 eq e n o2 semi t next : derives T 17 s -> names ns (nm :: args) -> derives T 105 o1 -> reads LvExpr e n -> derives T 229 o2 -> reads_stmt t next ->
    reads_stmt (NAlt 0 (NCat [NLit (lit "let"); s; ns; NLit (lit "="); o1; e; NLit (lit ";"); o2; NBox t])) (SLet k nm args eq n semi next).
Inductive reads_ast : tree -> stmt -> Prop :=
| reads_stop t st : reads_stmt t st -> reads_ast (NAlt 1 t) st
| reads_skip x t st : derives T 12 x -> reads_ast t st -> reads_ast (NAlt 0 (NCat [x; NBox t])) st.

Lemma reads_stmt_derives t st : reads_stmt t st -> derives T 15 t.
Proof.
  intros H. induction H as [k s e n o semi Hs He Ho | k s ns nm args o1 eq e n o2 semi t next Hs Hn H1 He H2 _ IH].
  - apply reads_derives_all in He. eapply (derives_fix T 15); [reflexivity |]. eapply (derives_alt T 236); [reflexivity | reflexivity |]. eapply (derives_cat T 235); [reflexivity |]. seq.
  - apply reads_derives_all in He. apply names_derives in Hn. eapply (derives_fix T 15); [reflexivity |]. eapply (derives_alt T 236); [reflexivity | reflexivity |]. eapply (derives_cat T 231); [reflexivity |].
    do 8 (constructor; [leaf |]). constructor; [now eapply (derives_box T 230) | constructor].
Qed.
Lemma reads_ast_derives t st : reads_ast t st -> derives T auto_root t.
Proof.
  intros H. induction H as [t st H | x t st Hx _ IH]; (eapply (derives_fix T 0); [reflexivity |]); (eapply (derives_alt T 237); [reflexivity | reflexivity |]).
  - now apply (reads_stmt_derives _ st).
  - eapply (derives_cat T 14); [reflexivity |]. constructor; [exact Hx |]. constructor; [| constructor]. now eapply (derives_box T 13).
Qed.
Lemma reads_stmt_exists : forall m t, tree_size t <= m -> derives T 15 t -> exists st, reads_stmt t st.
Proof.
  induction m as [| m IH]; intros t Hk H; [destruct t; cbn in Hk; lia |]. eapply fix_inv in H; [| reflexivity]. eapply alt2_inv in H; [| reflexivity]. destruct H as [(t' & -> & H) | (t' & -> & H)].
  - eapply cat_inv in H as (ts & -> & H); [| reflexivity].
    apply derives_seq_cons in H as (x1 & ? & -> & H1 & H). apply derives_seq_cons in H as (x2 & ? & -> & H2 & H). apply derives_seq_cons in H as (x3 & ? & -> & H3 & H).
    apply derives_seq_cons in H as (x4 & ? & -> & H4 & H). apply derives_seq_cons in H as (x5 & ? & -> & H5 & H). apply derives_seq_cons in H as (x6 & ? & -> & H6 & H).
    apply derives_seq_cons in H as (x7 & ? & -> & H7 & H). apply derives_seq_cons in H as (x8 & ? & -> & H8 & H). apply derives_seq_cons in H as (x9 & ? & -> & H9 & H). apply derives_seq_nil in H as ->.
    lit_in H1. lit_in H4. lit_in H7. eapply box_inv in H9 as (t & -> & H9); [| reflexivity]. destruct (IH t) as [st Hst]; [cbn in Hk; lia | exact H9 |].
    destruct (proj1 (reads_exists_all (tree_size x6)) LvExpr x6 (le_n _) H6) as [n Hn]. destruct (names_exists _ H3) as [l Hl]. destruct (names_text _ _ Hl) as (_ & Hne & _). destruct l as [| i l]; [now elim Hne |].
    exists (SLet call_site i l call_site n call_site st). now constructor.
  - eapply cat_inv in H as (ts & -> & H); [| reflexivity].
    apply derives_seq_cons in H as (x1 & ? & -> & H1 & H). apply derives_seq_cons in H as (x2 & ? & -> & H2 & H). apply derives_seq_cons in H as (x3 & ? & -> & H3 & H).
    apply derives_seq_cons in H as (x4 & ? & -> & H4 & H). apply derives_seq_cons in H as (x5 & ? & -> & H5 & H). apply derives_seq_nil in H as ->.
    lit_in H1. lit_in H4. destruct (proj1 (reads_exists_all (tree_size x3)) LvExpr x3 (le_n _) H3) as [n Hn]. exists (SGoal call_site n call_site). now constructor.
Qed.
Lemma reads_ast_exists : forall m t, tree_size t <= m -> derives T auto_root t -> exists st, reads_ast t st.
Proof.
  induction m as [| m IH]; intros t Hk H; [destruct t; cbn in Hk; lia |]. eapply fix_inv in H; [| reflexivity]. eapply alt2_inv in H; [| reflexivity]. destruct H as [(t' & -> & H) | (t' & -> & H)].
  - eapply cat2_inv in H as (x & y & -> & Hx & Hy); [| reflexivity]. eapply box_inv in Hy as (t & -> & Ht); [| reflexivity]. destruct (IH t) as [st Hst]; [cbn in Hk; lia | exact Ht |]. exists st. now constructor.
  - destruct (reads_stmt_exists (tree_size t') t' (le_n _) H) as [st Hst]. exists st. now constructor.
Qed.
Lemma reads_stmt_text t st : reads_stmt t st -> shape_stmt st /\ stmt_text st (yield t).
Proof.
  intros H. induction H as [k s e n o semi Hs He Ho | k s ns nm args o1 eq e n o2 semi t next Hs Hn H1 He H2 _ [IH1 IH2]].
  - apply reads_text_all in He as (Sn & w & g & E & Hw & Hg & _). destruct (ws_sound _ Hs) as [Hne Hgs]. apply (ows_gap 234) in Ho; [| in_ows]. split; [now constructor |].
    replace (yield _) with (lit "match" ++ yield s ++ w ++ g ++ lit ";" ++ yield o); [now constructor |]. cbn [yield flat_map]. rewrite E, app_nil_r, <- !app_assoc. reflexivity.
  - apply reads_text_all in He as (Sn & w & g & E & Hw & Hg & _). destruct (ws_sound _ Hs) as [Hne Hgs]. apply (ows_gap 105) in H1; [| in_ows]. apply (ows_gap 229) in H2; [| in_ows].
    apply names_text in Hn as (Hn & _ & v & g' & Ev & Hv & Hg'). apply Forall_cons_iff in Hn as [Ha Hn]. split; [now constructor |].
    replace (yield _) with (lit "let" ++ yield s ++ v ++ g' ++ lit "=" ++ yield o1 ++ w ++ g ++ lit ";" ++ yield o2 ++ yield t); [now constructor |].
    cbn [yield flat_map]. rewrite E, Ev, app_nil_r, <- !app_assoc. reflexivity.
Qed.
Lemma reads_ast_text t st : reads_ast t st -> shape_stmt st /\ program_text st (yield t).
Proof.
  intros H. induction H as [t st H | x t st Hx _ (IH & g & u & Hg & Hu & E)].
  - apply reads_stmt_text in H as [H1 H2]. split; [exact H1 |]. exists [], (yield t). split; [constructor |]. split; [exact H2 | reflexivity].
  - apply white_sound in Hx as (c & Ec & Hc). split; [exact IH |]. exists (c :: g), u. split; [now constructor |]. split; [exact Hu |]. cbn [yield flat_map]. now rewrite Ec, E, app_nil_r.
Qed.
Lemma reads_stmt_complete st : forall u, shape_stmt st -> stmt_text st u -> exists t, reads_stmt t st /\ yield t = u.
Proof.
  induction st as [k e semi | k nm args eq e semi next IH]; intros u S H.
  - inversion S; subst. inversion H as [? ? ? g1 w g2 g3 Hg1 Hne Hw Hg2 Hg3 |]; subst. destruct (reads_complete e LvExpr w g2) as (x & Hx & Ex); try assumption; [discriminate |].
    destruct (ws_complete g1) as (s & Hs & Es); [exact Hne | exact Hg1 |]. destruct (ows_complete 234 g3) as (o & Ho & Eo); [apply is_ows; in_ows | exact Hg3 |].
    eexists. split; [apply reads_goal; [exact Hs | exact Hx | exact Ho] |]. cbn [yield flat_map]. now rewrite Es, Ex, Eo, app_nil_r, <- !app_assoc.
  - inversion S; subst. inversion H as [| ? ? ? ? ? ? ? g1 v g2 g3 w g4 g5 u' Hg1 Hne Hv Hg2 Hg3 Hw Hg4 Hg5 Hu]; subst. destruct (reads_complete e LvExpr w g4) as (x & Hx & Ex); try assumption; [discriminate |].
    destruct (IH u') as (t & Ht & Et); [assumption | exact Hu |]. destruct (names_complete (nm :: args) v g2) as (y & Hy & Ey); [discriminate | now constructor | exact Hv | exact Hg2 |].
    destruct (ws_complete g1) as (s & Hs & Es); [exact Hne | exact Hg1 |]. destruct (ows_complete 105 g3) as (o1 & Ho1 & Eo1); [apply is_ows; in_ows | exact Hg3 |].
    destruct (ows_complete 229 g5) as (o2 & Ho2 & Eo2); [apply is_ows; in_ows | exact Hg5 |].
    eexists. split; [apply reads_let; [exact Hs | exact Hy | exact Ho1 | exact Hx | exact Ho2 | exact Ht] |]. cbn [yield flat_map]. now rewrite Es, Ex, Ey, Eo1, Eo2, Et, app_nil_r, <- !app_assoc.
Qed.
Lemma reads_ast_complete st s : shape_stmt st -> program_text st s -> exists t, reads_ast t st /\ yield t = s.
Proof.
  intros S (g & u & Hg & Hu & ->). destruct (reads_stmt_complete st u S Hu) as (t & Ht & Et). induction Hg as [| c g Hc _ (x & Hx & Ex)].
  - exists (NAlt 1 t). split; [now constructor | exact Et].
  - apply white_complete in Hc as (y & Hy & Ey). exists (NAlt 0 (NCat [y; NBox x])). split; [now constructor |]. cbn [yield flat_map]. now rewrite Ey, Ex, app_nil_r.
Qed.
