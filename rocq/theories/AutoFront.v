(** * AutoFront: chomp's front end on the texts autonibble accepts. *)
From Coq Require Import String.
From Verif Require Export AutoLex.
From Coq Require Import List Lia Bool.
Open Scope list_scope.

(** ** The tokens of a program are good *)
Lemma goods_app a b : goods a -> goods b -> (slash (last a nothing) -> ~ slash (hd nothing b)) -> goods (a ++ b).
Proof.
  intros Ha Hb Hs. revert Hs. induction Ha as [t Ht | t t' ts Ht Hts _ IH]; intros Hs.
  - destruct b as [| x b]; [inversion Hb |]. now constructor.
  - cbn [app]. constructor; [exact Ht | exact Hts |]. apply IH. now rewrite last_cons in Hs.
Qed.
Lemma ends_slash t : ends t -> ~ slash t.
Proof. now destruct t. Qed.
Lemma starts_slash t : starts t -> ~ slash t.
Proof. destruct t; cbn; auto. intros -> E. discriminate E. Qed.
Lemma good_pt c sp s : s = [c] -> In c marks -> good (TkPunct c sp).
Proof. intros _. apply good_punct. Qed.
Ltac mark := apply good_punct; unfold marks; cbn; tauto.
Lemma goods_idents l : l <> [] -> Forall named l -> goods (map TkIdent l).
Proof.
  intros Hl H. induction H as [| i l [Hr Hw] H IH]; [now elim Hl |]. destruct l as [| j l]; cbn [map].
  - constructor. constructor; auto.
  - constructor; [constructor; auto | now intros [] |]. now apply IH.
Qed.
Lemma goods_pairs L ps : L <> LvExpr -> L <> LvTerm -> punctuated (shape L) ps -> Forall (fun x => goods (to_tokens (fst x))) ps -> goods (pairs_tokens to_tokens (sep_of L) ps).
Proof.
  intros HL HL' H. induction H as [n Hn | n sp l Hn Hl IH]; intros F; apply Forall_cons_iff in F as [F1 F2]; cbn [fst] in F1.
  - cbn [pairs_tokens]. now rewrite !app_nil_r.
  - rewrite pt_pairs. destruct (shape_edges _ _ Hn) as (_ & _ & En). apply goods_app; [exact F1 | | intros Hs; now apply ends_slash in Hs].
    specialize (IH F2). assert (E : edges L (pairs_tokens to_tokens (sep_of L) l)) by (apply (edges_pairs L); [exact HL | exact HL |]; apply (punctuated_impl (shape L)); [exact Hl |]; apply Forall_forall; intros; now apply shape_edges).
    destruct E as (N & S & _). specialize (S HL). destruct (pairs_tokens to_tokens (sep_of L) l) as [| t ts]; [now elim N |]. constructor; [destruct L; mark | intros _; now apply starts_slash | exact IH].
Qed.
Lemma shape_goods n : forall L, shape L n -> goods (to_tokens n).
Proof.
  induction n as [sp | i | v sp | b t IH | sp e IH | ts IH | ps IH | c l IH | ps IH | l args r e IH] using node_ind'; intros L H; cbn [to_tokens].
  - constructor. constructor; [reflexivity | now right].
  - assert (Hi : named i) by (inversion H; subst; [assumption | match goal with H : shape LvAlt _ |- _ => inversion H end]). destruct Hi. constructor. constructor; auto.
  - constructor. constructor.
  - assert (Ht : shape LvTerm t) by (inversion H; subst; [assumption | match goal with H : shape LvAlt _ |- _ => inversion H end]). specialize (IH _ Ht). destruct (to_tokens t) as [| x ts]; [inversion IH |].
    constructor; [mark | intros E; discriminate E | exact IH].
  - assert (He : shape LvExpr e) by (inversion H; subst; [assumption | match goal with H : shape LvAlt _ |- _ => inversion H end]). constructor. constructor. now apply (IH LvExpr).
  - assert (Ht : exists t l, ts = t :: l /\ shape LvTerm t /\ Forall (shape LvTerm) l).
    { inversion H; subst; [eauto | match goal with H : shape LvAlt _ |- _ => inversion H end]. }
    destruct Ht as (t & l & -> & Ht & Hl). apply Forall_cons_iff in IH as [IHt IHl]. clear H L. cbn [flat_map]. specialize (IHt _ Ht). destruct (shape_edges _ _ Ht) as (N & _ & En). revert IHt N En. generalize (to_tokens t) as a.
    induction Hl as [| n l Hn Hl IH]; intros a Ga N En; cbn [flat_map]; [now rewrite app_nil_r |]. apply Forall_cons_iff in IHl as [IHn IHl]. destruct (shape_edges _ _ Hn) as (Nn & _ & Enn).
    apply goods_app; [exact Ga | | intros Hs; now apply ends_slash in Hs]. apply (IH IHl); [now apply (IHn LvTerm) | exact Nn | exact Enn].
  - assert (Ht : punctuated (shape LvCall) ps) by (inversion H; subst; [assumption | match goal with H : shape LvAlt _ |- _ => inversion H end]).
    apply (goods_pairs LvCall); [discriminate | discriminate | exact Ht |]. clear H. induction Ht; apply Forall_cons_iff in IH as [IH1 IH2]; constructor; cbn [fst] in *; eauto.
  - assert (Ht : shape LvCat c /\ forall sp i, l = Some (sp, i) -> named i) by (inversion H; subst; [split; assumption | match goal with H : shape LvAlt _ |- _ => inversion H end]). destruct Ht as [Hc Hl].
    specialize (IH _ Hc). destruct (shape_edges _ _ Hc) as (_ & _ & En). destruct l as [[sp i] |]; [| now rewrite app_nil_r]. apply goods_app; [exact IH | | intros Hs; now apply ends_slash in Hs]. destruct (Hl sp i eq_refl).
    constructor; [mark | intros E; discriminate E |]. constructor. constructor; auto.
  - assert (Ht : punctuated (shape LvLabelled) ps).
    { inversion H; subst; [assumption | match goal with H : shape LvAlt _ |- _ => inversion H; subst end; assumption]. }
    apply (goods_pairs LvLabelled); [discriminate | discriminate | exact Ht |]. clear H. induction Ht; apply Forall_cons_iff in IH as [IH1 IH2]; constructor; cbn [fst] in *; eauto.
  - assert (Ht : shape LvAlt e /\ args <> [] /\ Forall named args).
    { inversion H; subst; [match goal with H : shape LvAlt _ |- _ => inversion H end | split; [auto |]; split; [discriminate | now constructor]]. }
    destruct Ht as (He & Hne & Hn). specialize (IH _ He). destruct (shape_edges _ _ He) as (N & S & _). specialize (S ltac:(discriminate)).
    assert (G : goods (map TkIdent args ++ pt "/" r :: to_tokens e)).
    { apply goods_app; [now apply goods_idents | destruct (to_tokens e) as [| x ts]; [now elim N |]; constructor; [mark | intros _; now apply starts_slash | exact IH] |].
      intros Hs. exfalso. revert Hs. clear -Hne. induction args as [| a args IH]; [now elim Hne |]. destruct args as [| b args]; [now intros [] |]. cbn [map]. rewrite last_cons by discriminate. now apply IH. }
    destruct args as [| a args]; [now elim Hne |]. cbn [map app] in *. constructor; [mark | now intros _ [] | exact G].
Qed.
Fixpoint stmt_goods (s : stmt) : shape_stmt s -> goods (stmt_tokens s).
Proof.
  destruct s as [k e semi | k nm args eq e semi next]; intros H; inversion H; subst; cbn [stmt_tokens].
  - destruct (shape_edges e LvExpr ltac:(assumption)) as (N & _ & En). assert (G : goods (to_tokens e ++ [pt ";" semi])) by (apply goods_app; [now apply (shape_goods e LvExpr) | constructor; mark | intros Hs; now apply ends_slash in Hs]).
    destruct (to_tokens e) as [| x ts]; [now elim N |]. constructor; [constructor; [reflexivity | left] | now intros [] | exact G]. exists 109%N, (lit "atch"). split; [reflexivity |]. split; [left; lia |]. apply Forall_forall. intros c Hc. cbn in Hc.
    left. left. lia.
  - destruct (shape_edges e LvExpr ltac:(assumption)) as (N & _ & En). specialize (stmt_goods next ltac:(assumption)).
    assert (G : goods (to_tokens e ++ pt ";" semi :: stmt_tokens next)).
    { apply goods_app; [now apply (shape_goods e LvExpr) | | intros Hs; now apply ends_slash in Hs]. assert (stmt_tokens next <> []) as Nn by (destruct next; discriminate). destruct (stmt_tokens next) as [| x ts]; [now elim Nn |].
      constructor; [mark | intros E; discriminate E | exact stmt_goods]. }
    assert (G1 : goods (pt "=" eq :: to_tokens e ++ pt ";" semi :: stmt_tokens next)).
    { destruct (to_tokens e) as [| x ts]; [now elim N |]. constructor; [mark | intros E; discriminate E | exact G]. }
    assert (G2 : goods (map TkIdent (nm :: args) ++ pt "=" eq :: to_tokens e ++ pt ";" semi :: stmt_tokens next)).
    { apply goods_app; [apply goods_idents; [discriminate | now constructor] | exact G1 | intros _ E; discriminate E]. }
    cbn [map app] in G2. constructor; [constructor; [reflexivity | left] | now intros [] | exact G2]. exists 108%N, (lit "et"). split; [reflexivity |]. split; [left; lia |]. apply Forall_forall. intros c Hc. cbn in Hc. left. left. lia.
Qed.

(** ** Literals *)
Lemma scalars_iff v : forallb is_scalar v = true <-> Forall scalar v.
Proof. rewrite forallb_forall, Forall_forall. split; intros H x Hx; apply scalarb_iff; auto. Qed.
Lemma clean_idents l : forallb cleanb (map TkIdent l) = true.
Proof. now induction l. Qed.
Lemma clean_pairs sep ps : forallb cleanb (pairs_tokens to_tokens sep ps) = forallb (fun x => forallb cleanb (to_tokens (fst x))) ps.
Proof. induction ps as [| [n [sp |]] ps IH]; cbn [pairs_tokens forallb fst]; rewrite ?forallb_app, ?IH; reflexivity. Qed.
Lemma clean_iff n : forallb cleanb (to_tokens n) = true <-> printable n.
Proof.
  induction n as [sp | i | v sp | b t IH | sp e IH | ts IH | ps IH | c l IH | ps IH | l args r e IH] using node_ind'; cbn [to_tokens forallb cleanb andb].
  - split; [constructor | reflexivity].
  - split; [constructor | reflexivity].
  - rewrite andb_true_r, scalars_iff. split; [now constructor | intros H; now inversion H].
  - rewrite IH. split; [now constructor | intros H; now inversion H].
  - rewrite andb_true_r, IH. split; [now constructor | intros H; now inversion H].
  - transitivity (Forall printable ts); [| split; [now constructor | intros H; now inversion H]].
    induction IH as [| n ts Hn _ IH]; cbn [flat_map]; [split; [constructor | reflexivity] |]. now rewrite forallb_app, andb_true_iff, Forall_cons_iff, Hn, IH.
  - rewrite clean_pairs. transitivity (Forall (fun p => printable (fst p)) ps); [| split; [now constructor | intros H; now inversion H]].
    induction IH as [| n ts Hn _ IH]; cbn [forallb]; [split; [constructor | reflexivity] |]. now rewrite andb_true_iff, Forall_cons_iff, Hn, IH.
  - rewrite forallb_app. replace (forallb cleanb match l with Some (sp, i) => [pt ":" sp; TkIdent i] | None => [] end) with true by (now destruct l as [[sp i] |]). rewrite andb_true_r, IH. split; [now constructor | intros H; now inversion H].
  - rewrite clean_pairs. transitivity (Forall (fun p => printable (fst p)) ps); [| split; [now constructor | intros H; now inversion H]].
    induction IH as [| n ts Hn _ IH]; cbn [forallb]; [split; [constructor | reflexivity] |]. now rewrite andb_true_iff, Forall_cons_iff, Hn, IH.
  - rewrite forallb_app, clean_idents. cbn [forallb cleanb pt andb]. rewrite IH. split; [now constructor | intros H; now inversion H].
Qed.
Lemma clean_stmt s : forallb cleanb (stmt_tokens s) = true <-> printable_stmt s.
Proof.
  induction s as [k e semi | k nm args eq e semi next IH]; cbn [stmt_tokens printable_stmt forallb cleanb kw andb].
  - rewrite forallb_app. cbn [forallb cleanb pt]. now rewrite andb_true_r, clean_iff.
  - rewrite forallb_app, clean_idents. cbn [forallb cleanb pt andb]. rewrite forallb_app. cbn [forallb cleanb pt]. rewrite andb_true_iff. now rewrite clean_iff, IH.
Qed.

(** ** Programs with other spans *)
Lemma one_token t ts' : Forall2 same_token [t] ts' -> exists t', ts' = [t'] /\ same_token t t'.
Proof. intros H. inversion H as [| ? t' ? l Ht Hl]; subst. inversion Hl; subst. eauto. Qed.
Lemma cons_token t ts ts' : Forall2 same_token (t :: ts) ts' -> exists t' l, ts' = t' :: l /\ same_token t t' /\ Forall2 same_token ts l.
Proof. intros H. inversion H; subst. eauto. Qed.
Lemma pt_token s sp t : same_token (pt s sp) t -> exists sp', t = pt s sp'.
Proof. intros H. inversion H; subst. now eexists. Qed.
Lemma kw_token s sp t : same_token (kw s sp) t -> exists sp', t = kw s sp'.
Proof. intros H. inversion H; subst. now eexists. Qed.
Lemma same_named i sp : named i -> named (Ident (id_raw i) (id_sym i) sp).
Proof. exact (fun H => H). Qed.
Lemma idents_token l ts' : Forall2 same_token (map TkIdent l) ts' -> Forall named l -> exists l', ts' = map TkIdent l' /\ Forall named l' /\ length l' = length l.
Proof.
  revert ts'. induction l as [| i l IH]; intros ts' H Hn; cbn [map] in H.
  - inversion H; subst. exists []. auto.
  - apply Forall_cons_iff in Hn as [Hi Hn]. apply cons_token in H as (t & ts & -> & Ht & H). destruct (IH ts H Hn) as (l' & -> & Hn' & E). inversion Ht; subst. exists (Ident (id_raw i) (id_sym i) sp :: l').
    split; [reflexivity |]. split; [constructor; [exact Hi | exact Hn'] |]. cbn. now rewrite E.
Qed.
Lemma respan_pairs L ps : (forall n, shape L n -> In n (map fst ps) -> forall ts', Forall2 same_token (to_tokens n) ts' -> exists n', shape L n' /\ to_tokens n' = ts') ->
  punctuated (shape L) ps -> forall ts', Forall2 same_token (pairs_tokens to_tokens (sep_of L) ps) ts' -> exists ps', punctuated (shape L) ps' /\ pairs_tokens to_tokens (sep_of L) ps' = ts'.
Proof.
  intros IH H. revert IH. induction H as [n Hn | n sp l Hn Hl IHl]; intros IH ts' H'.
  - cbn [pairs_tokens] in H'. rewrite !app_nil_r in H'. destruct (IH n Hn (or_introl eq_refl) _ H') as (n' & Hn' & E). exists [(n', None)]. split; [now constructor |]. cbn [pairs_tokens]. now rewrite !app_nil_r.
  - rewrite pt_pairs in H'. apply Forall2_app_inv_l in H' as (a & b & Ha & Hb & ->). apply cons_token in Hb as (t & c & -> & Ht & Hc). apply pt_token in Ht as [sp' ->].
    destruct (IH n Hn (or_introl eq_refl) _ Ha) as (n' & Hn' & E). destruct (IHl (fun m Hm Hi => IH m Hm (or_intror Hi)) c Hc) as (ps' & Hps & E'). exists ((n', Some sp') :: ps'). split; [now constructor |]. rewrite pt_pairs. now rewrite E, E'.
Qed.
Lemma respan n : forall L, shape L n -> forall ts', Forall2 same_token (to_tokens n) ts' -> exists n', shape L n' /\ to_tokens n' = ts'.
Proof.
  induction n as [sp | i | v sp | b t IH | sp e IH | ts IH | ps IH | c l IH | ps IH | l args r e IH] using node_ind'; intros L H ts' H'; cbn [to_tokens] in H'.
  1-5: assert (L = LvTerm) as -> by (inversion H; subst; [reflexivity | match goal with H : shape LvAlt _ |- _ => inversion H end]).
  - apply one_token in H' as (t & -> & Ht). apply kw_token in Ht as [sp' ->]. exists (NEpsilon sp'). split; [constructor | reflexivity].
  - apply one_token in H' as (t & -> & Ht). inversion Ht; subst. eexists (NIdent _). split; [constructor | reflexivity]. assert (Hi : named i) by now inversion H. exact Hi.
  - apply one_token in H' as (t & -> & Ht). inversion Ht; subst. eexists (NLiteral v _). split; [constructor; now inversion H | reflexivity].
  - apply cons_token in H' as (x & ts & -> & Hx & H'). apply pt_token in Hx as [sp' ->]. destruct (IH LvTerm) with (ts' := ts) as (n' & Hn' & E); [now inversion H | exact H' |]. exists (NFix sp' n'). split; [now constructor |]. cbn [to_tokens]. now rewrite E.
  - apply one_token in H' as (t & -> & Ht). inversion Ht as [| | | ? sp' ? ts Hts]; subst. destruct (IH LvExpr) with (ts' := ts) as (n' & Hn' & E); [now inversion H | exact Hts |]. exists (NParen sp' n'). split; [now constructor |]. cbn [to_tokens]. now rewrite E.
  - assert (Ht : L = LvCall /\ ts <> [] /\ Forall (shape LvTerm) ts).
    { inversion H; subst; [split; [reflexivity |]; split; [discriminate | now constructor] | match goal with H : shape LvAlt _ |- _ => inversion H end]. }
    destruct Ht as (-> & Hne & Hts). assert (exists ls, Forall (shape LvTerm) ls /\ flat_map to_tokens ls = ts' /\ length ls = length ts) as (ls & Hls & E & El).
    { clear H Hne. revert ts' H'. induction IH as [| n ts Hn _ IH]; intros ts' H'; cbn [flat_map] in H'; [inversion H'; exists []; auto |]. apply Forall_cons_iff in Hts as [Hn' Hts].
      apply Forall2_app_inv_l in H' as (a & b & Ha & Hb & ->). destruct (Hn LvTerm Hn' a Ha) as (m & Hm & Em). destruct (IH Hts b Hb) as (ls & Hls & E & El). exists (m :: ls). split; [now constructor |]. cbn [flat_map length]. now rewrite Em, E, El. }
    destruct ls as [| m ls]; [destruct ts; [now elim Hne | discriminate] |]. apply Forall_cons_iff in Hls as [Hm Hls]. exists (NCall (m :: ls)). split; [now constructor | exact E].
  - assert (Ht : L = LvCat /\ punctuated (shape LvCall) ps).
    { inversion H; subst; [split; auto | match goal with H : shape LvAlt _ |- _ => inversion H end]. }
    destruct Ht as [-> Hps]. destruct (respan_pairs LvCall ps) with (ts' := ts') as (ps' & Hps' & E); [| exact Hps | exact H' | exists (NCatP ps'); split; [now constructor | exact E]].
    intros n Hn Hi. apply in_map_iff in Hi as (x & <- & Hx). rewrite Forall_forall in IH. now apply IH.
  - assert (Ht : L = LvLabelled /\ shape LvCat c /\ forall sp i, l = Some (sp, i) -> named i).
    { inversion H; subst; [split; auto | match goal with H : shape LvAlt _ |- _ => inversion H end]. }
    destruct Ht as (-> & Hc & Hl). apply Forall2_app_inv_l in H' as (a & b & Ha & Hb & ->). destruct (IH _ Hc _ Ha) as (c' & Hc' & E). destruct l as [[sp i] |].
    + apply cons_token in Hb as (t & l' & -> & Ht & Hb). apply pt_token in Ht as [sp' ->]. apply one_token in Hb as (t & -> & Ht). inversion Ht; subst. eexists (NLabelled c' (Some (sp', _))). split; [| cbn [to_tokens]; reflexivity].
      constructor; [exact Hc' |]. intros ? ? [= <- <-]. exact (Hl sp i eq_refl).
    + inversion Hb; subst. exists (NLabelled c' None). split; [constructor; [exact Hc' | discriminate] | reflexivity].
  - assert (Ht : (L = LvAlt \/ L = LvExpr) /\ punctuated (shape LvLabelled) ps).
    { inversion H; subst; [split; auto | match goal with H : shape LvAlt _ |- _ => inversion H; subst end; auto]. }
    destruct Ht as [HL Hps]. destruct (respan_pairs LvLabelled ps) with (ts' := ts') as (ps' & Hps' & E); [| exact Hps | exact H' | exists (NAltP ps'); split; [destruct HL as [-> | ->]; repeat constructor; exact Hps' | exact E]].
    intros n Hn Hi. apply in_map_iff in Hi as (x & <- & Hx). rewrite Forall_forall in IH. now apply IH.
  - assert (Ht : L = LvExpr /\ shape LvAlt e /\ args <> [] /\ Forall named args).
    { inversion H; subst; [match goal with H : shape LvAlt _ |- _ => inversion H end | split; [auto |]; split; [auto |]; split; [discriminate | now constructor]]. }
    destruct Ht as (-> & He & Hne & Hn). apply cons_token in H' as (t & ts & -> & Ht & H'). apply pt_token in Ht as [l' ->]. apply Forall2_app_inv_l in H' as (a & b & Ha & Hb & ->).
    apply cons_token in Hb as (t & ts & -> & Ht & H'). apply pt_token in Ht as [r' ->]. destruct (IH _ He _ H') as (e' & He' & E). destruct (idents_token _ _ Ha Hn) as (args' & -> & Hn' & El).
    destruct args' as [| i args']; [destruct args; [now elim Hne | discriminate] |]. apply Forall_cons_iff in Hn' as [Hi Hn']. exists (NLambda l' (i :: args') r' e'). split; [now constructor |]. cbn [to_tokens]. now rewrite E.
Qed.
Lemma text_transfer :
  (forall t w, token_text t w -> forall t', same_token t t' -> token_text t' w) /\
  (forall ts w, tokens_text ts w -> forall ts', Forall2 same_token ts ts' -> tokens_text ts' w).
Proof.
  apply token_texts_ind.
  - intros i Hr t' H. inversion H; subst. exact (text_word (Ident (id_raw i) (id_sym i) sp) Hr).
  - intros v sp w Hw t' H. inversion H; subst. now constructor.
  - intros c sp t' H. inversion H; subst. constructor.
  - intros sp ts g w g' Hg _ IH Hg' t' H. inversion H; subst. constructor; auto.
  - intros t w _ IH ts' H. apply one_token in H as (t' & -> & Ht). constructor. auto.
  - intros t u g t' ts w _ IH1 Ha _ IH2 ts' H. apply cons_token in H as (x & l & -> & Hx & H). pose proof (IH2 l H) as Hl. inversion H as [| ? y ? l' Hy _]; subst. constructor; [auto | | exact Hl].
    destruct Ha as [Hg Hne]. split; [exact Hg |]. inversion Hx; inversion Hy; subst; exact Hne.
Qed.
Lemma respan_stmt st : shape_stmt st -> forall ts', Forall2 same_token (stmt_tokens st) ts' -> exists st', shape_stmt st' /\ stmt_tokens st' = ts' /\ forall u, stmt_text st u -> stmt_text st' u.
Proof.
  induction st as [k e semi | k nm args eq e semi next IH]; intros S ts' H; inversion S; subst; cbn [stmt_tokens] in H.
  - apply cons_token in H as (t & l & -> & Ht & H). apply kw_token in Ht as [k' ->]. apply Forall2_app_inv_l in H as (a & b & Ha & Hb & ->). apply one_token in Hb as (t & -> & Ht). apply pt_token in Ht as [semi' ->].
    destruct (respan e LvExpr) with (ts' := a) as (e' & He' & E); [assumption | exact Ha |]. exists (SGoal k' e' semi'). split; [now constructor |]. split; [cbn [stmt_tokens]; now rewrite E |].
    intros u Hu. inversion Hu; subst. constructor; try assumption. now apply (proj2 text_transfer _ _ ltac:(eassumption)).
  - apply cons_token in H as (t & l & -> & Ht & H). apply kw_token in Ht as [k' ->]. apply cons_token in H as (t & l' & -> & Ht & H). apply Forall2_app_inv_l in H as (a & b & Ha & Hb & ->).
    apply cons_token in Hb as (t' & l & -> & Ht' & H). apply pt_token in Ht' as [eq' ->]. apply Forall2_app_inv_l in H as (c & d & Hc & Hd & ->). apply cons_token in Hd as (t' & l & -> & Ht' & H). apply pt_token in Ht' as [semi' ->].
    destruct (respan e LvExpr) with (ts' := c) as (e' & He' & E); [assumption | exact Hc |]. destruct (IH ltac:(assumption) l H) as (next' & Hnext & E' & Hu'). destruct (idents_token _ _ Ha ltac:(assumption)) as (args' & -> & Hn' & El).
    inversion Ht; subst. exists (SLet k' (Ident (id_raw nm) (id_sym nm) sp) args' eq' e' semi' next'). split; [constructor; assumption |]. split; [reflexivity |].
    intros u Hu. inversion Hu; subst. constructor; try assumption; [| now apply (proj2 text_transfer _ _ ltac:(eassumption)) | now apply Hu'].
    eapply (proj2 text_transfer); [eassumption |]. cbn [map]. constructor; [constructor | exact Ha].
Qed.

(** ** Parameters can be found by looking at the tokens alone *)
Inductive mode := InExpr | InLambda | AtStmt | AtName | InLet.
Definition scan_list (f : mode -> token -> bool * mode) : mode -> list token -> bool :=
  fix go m ts := match ts with [] => true | t :: ts' => fst (f m t) && go (snd (f m t)) ts' end.
Fixpoint scan (m : mode) (t : token) : bool * mode :=
  match m, t with
  | InLambda, TkIdent i => (negb (is_reserved i), InLambda)
  | InLambda, _ => (true, InExpr)
  | AtStmt, TkIdent i => (true, if is_word (lit "let") i then AtName else InExpr)
  | AtName, _ => (true, InLet)
  | InLet, TkIdent i => (negb (is_reserved i), InLet)
  | InLet, _ => (true, InExpr)
  | _, TkPunct c _ => (true, if N.eqb c 47 then InLambda else if N.eqb c 59 then AtStmt else InExpr)
  | _, TkGroup _ ts => (scan_list scan InExpr ts, InExpr)
  | _, _ => (true, InExpr)
  end.
Definition scans := scan_list scan.
Lemma scans_cons m t ts : scans m (t :: ts) = fst (scan m t) && scans (snd (scan m t)) ts.
Proof. reflexivity. Qed.
Definition free (i : ident) : bool := negb (is_reserved i).
Lemma free_iff l : forallb free l = true <-> Forall parameter l.
Proof. rewrite forallb_forall, Forall_forall. split; intros H i Hi; specialize (H i Hi); unfold free in *; [apply is_reserved_iff; now destruct (is_reserved i) | apply is_reserved_iff in H; now rewrite H]. Qed.
Lemma scans_params m l ts : m = InLambda \/ m = InLet -> scans m (map TkIdent l ++ ts) = forallb free l && scans m ts.
Proof.
  intros Hm. induction l as [| i l IH]; [reflexivity |]. cbn [map app forallb]. rewrite scans_cons. replace (scan m (TkIdent i)) with (free i, m) by (destruct Hm as [-> | ->]; reflexivity). cbn [fst snd]. now rewrite IH, andb_assoc.
Qed.
(** Reading a phrase checks its parameters and comes back. *)
Definition scanned (n : node) : Prop := forall ts, exists b, scans InExpr (to_tokens n ++ ts) = b && scans InExpr ts /\ (b = true <-> unreserved n).
Lemma scanned_pairs s ps : s = "."%string \/ s = "|"%string -> Forall (fun x => scanned (fst x)) ps -> forall ts,
  exists b, scans InExpr (pairs_tokens to_tokens s ps ++ ts) = b && scans InExpr ts /\ (b = true <-> Forall (fun x => unreserved (fst x)) ps).
Proof.
  intros Hs H ts. induction H as [| [n p] ps Hn _ (b & Eb & Hb)].
  - exists true. split; [reflexivity |]. split; [constructor | reflexivity].
  - cbn [pairs_tokens fst] in *. rewrite <- !app_assoc. destruct (Hn (match p with Some sp => [pt s sp] | None => [] end ++ pairs_tokens to_tokens s ps ++ ts)) as (c & Ec & Hc). exists (c && b). split.
    + rewrite Ec, <- andb_assoc, <- Eb. f_equal. destruct p as [sp |]; [| reflexivity]. destruct Hs as [-> | ->]; reflexivity.
    + now rewrite andb_true_iff, Forall_cons_iff, Hc, Hb.
Qed.
Lemma scan_node n : scanned n.
Proof.
  induction n as [sp | i | v sp | b t IH | sp e IH | ts IH | ps IH | c l IH | ps IH | l args r e IH] using node_ind'; intros rest; cbn [to_tokens app].
  - exists true. split; [reflexivity |]. split; [constructor | reflexivity].
  - exists true. split; [reflexivity |]. split; [constructor | reflexivity].
  - exists true. split; [reflexivity |]. split; [constructor | reflexivity].
  - destruct (IH rest) as (x & E & H). exists x. split; [exact E |]. rewrite H. split; [now constructor | intros K; now inversion K].
  - destruct (IH []) as (x & E & H). rewrite app_nil_r in E. exists x. split; [| rewrite H; split; [now constructor | intros K; now inversion K]]. rewrite scans_cons. cbn [scan fst snd]. change (scan_list scan InExpr (to_tokens e)) with (scans InExpr (to_tokens e)). rewrite E.
    change (scans InExpr []) with true. now rewrite andb_true_r.
  - assert (exists b, scans InExpr (flat_map to_tokens ts ++ rest) = b && scans InExpr rest /\ (b = true <-> Forall unreserved ts)) as (b & E & H).
    { induction IH as [| n ts Hn _ (b & E & H)]; [exists true; split; [reflexivity |]; split; [constructor | reflexivity] |]. cbn [flat_map]. rewrite <- app_assoc. destruct (Hn (flat_map to_tokens ts ++ rest)) as (c & Ec & Hc).
      exists (c && b). split; [now rewrite Ec, E, andb_assoc |]. now rewrite andb_true_iff, Forall_cons_iff, Hc, H. }
    exists b. split; [exact E |]. rewrite H. split; [now constructor | intros K; now inversion K].
  - destruct (scanned_pairs "." ps (or_introl eq_refl) IH rest) as (b & E & H). exists b. split; [exact E |]. rewrite H. split; [now constructor | intros K; now inversion K].
  - rewrite <- app_assoc. destruct (IH (match l with Some (sp, i) => [pt ":" sp; TkIdent i] | None => [] end ++ rest)) as (b & E & H). exists b. split; [rewrite E; now destruct l as [[sp i] |] |]. rewrite H. split; [now constructor | intros K; now inversion K].
  - destruct (scanned_pairs "|" ps (or_intror eq_refl) IH rest) as (b & E & H). exists b. split; [exact E |]. rewrite H. split; [now constructor | intros K; now inversion K].
  - rewrite <- app_assoc. rewrite scans_cons. cbn [scan pt fst snd andb]. change (chr "/" =? 47)%N with true. cbn iota. rewrite scans_params by now left. cbn [app]. rewrite scans_cons. cbn [scan pt fst snd andb]. destruct (IH rest) as (b & E & H).
    exists (forallb free args && b). split; [now rewrite E, andb_assoc |]. rewrite andb_true_iff, H, free_iff. split; [intros [H1 H2]; now constructor | intros K; now inversion K].
Qed.
Lemma scan_stmt s : scans AtStmt (stmt_tokens s) = true <-> unreserved_stmt s.
Proof.
  induction s as [k e semi | k nm args eq e semi next IH]; cbn [stmt_tokens unreserved_stmt]; rewrite scans_cons; cbn [scan kw fst snd andb].
  - change (is_word (lit "let") (Ident false (lit "match") k)) with false. cbn iota. destruct (scan_node e [pt ";" semi]) as (b & E & H). rewrite E, <- H. change (scans InExpr [pt ";" semi]) with true. now rewrite andb_true_r.
  - change (is_word (lit "let") (Ident false (lit "let") k)) with true. cbn iota. rewrite scans_cons. cbn [scan fst snd andb]. rewrite scans_params by now right. rewrite scans_cons. cbn [scan pt fst snd andb].
    destruct (scan_node e (pt ";" semi :: stmt_tokens next)) as (b & E & H). rewrite E, scans_cons. cbn [scan pt fst snd andb]. change (chr ";" =? 47)%N with false. change (chr ";" =? 59)%N with true. cbn iota.
    now rewrite !andb_true_iff, free_iff, H, IH.
Qed.
Lemma scan_same : forall t t', same_token t t' -> forall m, scan m t = scan m t'.
Proof.
  fix IH 1. intros t t' H m. destruct t as [i | v sp | c sp | sp ts | sp].
  - inversion H; subst. destruct m; reflexivity.
  - inversion H; subst. destruct m; reflexivity.
  - inversion H; subst. destruct m; reflexivity.
  - assert (E : forall ts', Forall2 same_token ts ts' -> forall m, scan_list scan m ts = scan_list scan m ts').
    { clear H. induction ts as [| x ts IHts]; intros ts' H m0; destruct ts' as [| x' ts']; [reflexivity | inversion H | inversion H |]. assert (Hx : same_token x x') by now inversion H. cbn [scan_list]. rewrite (IH x x' Hx m0). f_equal. apply IHts. now inversion H. }
    inversion H as [| | | ? ? ? ts' Hts]; subst. destruct m; cbn [scan]; now rewrite ?(E _ Hts).
  - inversion H.
Qed.
Lemma scans_same ts ts' : Forall2 same_token ts ts' -> forall m, scans m ts = scans m ts'.
Proof. induction 1 as [| t t' ts ts' H _ IH]; intros m; [reflexivity |]. rewrite !scans_cons, (scan_same _ _ H). now rewrite IH. Qed.
Lemma clean_same : forall t t', same_token t t' -> cleanb t = cleanb t'.
Proof.
  fix IH 1. intros t t' H. destruct t as [i | v sp | c sp | sp ts | sp]; try (inversion H; reflexivity).
  assert (E : forall ts', Forall2 same_token ts ts' -> forallb cleanb ts = forallb cleanb ts').
  { clear H. induction ts as [| x ts IHts]; intros ts' H; destruct ts' as [| x' ts']; [reflexivity | inversion H | inversion H |]. assert (Hx : same_token x x') by now inversion H. cbn [forallb]. rewrite (IH x x' Hx). f_equal. apply IHts. now inversion H. }
  inversion H as [| | | ? ? ? ts' Hts]; subst. exact (E _ Hts).
Qed.
Lemma cleans_same ts ts' : Forall2 same_token ts ts' -> forallb cleanb ts = forallb cleanb ts'.
Proof. induction 1 as [| t t' ts ts' H _ IH]; [reflexivity |]. cbn [forallb]. now rewrite (clean_same _ _ H), IH. Qed.

(** ** Parsing *)
Lemma shape_wf n : forall L, shape L n -> unreserved n -> wf L n.
Proof.
  induction n as [sp | i | v sp | b t IH | sp e IH | ts IH | ps IH | c l IH | ps IH | l args r e IH] using node_ind'; intros L H U.
  1-8: inversion H; subst; try (match goal with K : shape LvAlt _ |- _ => inversion K end); inversion U; subst.
  - constructor.
  - constructor. match goal with K : named _ |- _ => destruct K as [_ (c & cs & E & Hc & _)] end. intros [_ X]. rewrite E in X. injection X as -> _. unfold letter in Hc. lia.
  - constructor.
  - constructor. auto.
  - constructor. auto.
  - match goal with K : Forall unreserved _ |- _ => apply Forall_cons_iff in K as [U1 U2] end. apply Forall_cons_iff in IH as [IH1 IH2]. constructor; [auto |]. rewrite Forall_forall in *. auto.
  - constructor. match goal with K : punctuated _ _ |- _ => apply (punctuated_impl (shape LvCall)); [exact K |] end. rewrite Forall_forall in *. auto.
  - constructor. auto.
  - assert (Ht : (L = LvAlt \/ L = LvExpr) /\ punctuated (shape LvLabelled) ps).
    { inversion H; subst; [split; auto | match goal with H : shape LvAlt _ |- _ => inversion H; subst end; auto]. }
    destruct Ht as [HL Hps]. inversion U; subst. assert (W : wf LvAlt (NAltP ps)) by (constructor; apply (punctuated_impl (shape LvLabelled)); [exact Hps |]; rewrite Forall_forall in *; auto).
    destruct HL as [-> | ->]; [exact W | now constructor].
  - inversion H; subst; [match goal with K : shape LvAlt _ |- _ => inversion K end |]. inversion U; subst. match goal with K : Forall parameter _ |- _ => apply Forall_cons_iff in K as [U1 U2] end. apply wf_lambda; auto.
Qed.
Lemma shape_wf_stmt s : shape_stmt s -> unreserved_stmt s -> wf_stmt s.
Proof.
  intros H. induction H as [k e semi H | k nm args eq e semi next Hn Ha He _ IH]; cbn [unreserved_stmt].
  - intros U. constructor. now apply shape_wf.
  - intros (U1 & U2 & U3). constructor; [exact U1 | now apply shape_wf | now apply IH].
Qed.
Lemma wf_unreserved n : forall L, wf L n -> unreserved n.
Proof.
  assert (P : forall L ps, punctuated (wf L) ps -> Forall (fun x => forall L, wf L (fst x) -> unreserved (fst x)) ps -> Forall (fun x => unreserved (fst x)) ps).
  { intros L ps H. induction H as [x Hx | x sp l Hx _ IH]; intros F; apply Forall_cons_iff in F as [F1 F2]; constructor; eauto. }
  induction n as [sp | i | v sp | b t IH | sp e IH | ts IH | ps IH | c l IH | ps IH | l args r e IH] using node_ind'; intros L H.
  all: inversion H; subst; try (match goal with K : wf LvAlt _ |- _ => inversion K; subst end); constructor; eauto.
  apply Forall_cons_iff in IH as [IH1 IH2]. constructor; [eauto |]. rewrite Forall_forall in *. eauto.
Qed.
Lemma wf_unreserved_stmt s : wf_stmt s -> unreserved_stmt s.
Proof. induction 1 as [k e semi H | k nm args eq e semi next Ha He _ IH]; cbn [unreserved_stmt]; [now apply (wf_unreserved e LvExpr) |]. split; [exact Ha |]. split; [now apply (wf_unreserved e LvExpr) | exact IH]. Qed.

(** ** The tokens of a program text *)
Lemma apart_gap t t' g : gap g -> (ends t -> starts t' -> g <> []) -> apart t t' g.
Proof. now split. Qed.
Lemma stmt_starts st : hd nothing (stmt_tokens st) = kw (match st with SGoal _ _ _ => "match" | SLet _ _ _ _ _ _ _ => "let" end) (match st with SGoal k _ _ | SLet k _ _ _ _ _ _ => k end) /\ stmt_tokens st <> [].
Proof. destruct st; split; reflexivity || discriminate. Qed.
Lemma kw_text s sp : token_text (kw s sp) (lit s).
Proof. exact (text_word (Ident false (lit s) sp) eq_refl). Qed.
Lemma text_kw s sp b g w : b <> [] -> gap g -> g <> [] -> tokens_text b w -> tokens_text (kw s sp :: b) (lit s ++ g ++ w).
Proof. intros Hb Hg Hn Hw. destruct b as [| t b]; [now elim Hb |]. constructor; [apply kw_text | now split | exact Hw]. Qed.
Lemma stmt_text_tokens st : shape_stmt st -> forall u, stmt_text st u -> exists w g, u = w ++ g /\ tokens_text (stmt_tokens st) w /\ gap g.
Proof.
  intros H. induction H as [k e semi He | k nm args eq e semi next Hn Ha He Hs IH]; intros u Hu.
  - inversion Hu; subst. pose proof (shape_edges e LvExpr He) as (E1 & _ & E3). exists (lit "match" ++ g1 ++ w ++ g2 ++ [59%N]), g3. change (lit ";") with [59%N]. split; [now rewrite <- !app_assoc |]. split; [| assumption].
    cbn [stmt_tokens]. apply text_kw; [now destruct (to_tokens e) | assumption | assumption |]. apply text_app_punct; [discriminate | exact E1 |]. exists w, g2, [59%N]. repeat (split; [auto |]). apply one_text. constructor.
  - inversion Hu; subst. destruct (IH _ ltac:(eassumption)) as (w2 & g & -> & Hw2 & Hg). pose proof (shape_edges e LvExpr He) as (E1 & _ & E3).
    exists (lit "let" ++ g1 ++ ns ++ g2 ++ lit "=" ++ g3 ++ w ++ g4 ++ lit ";" ++ g5 ++ w2), g. split; [now rewrite <- !app_assoc |]. split; [| assumption].
    cbn [stmt_tokens]. apply text_kw; [discriminate | assumption | assumption |]. change (TkIdent nm :: map TkIdent args ++ pt "=" eq :: to_tokens e ++ pt ";" semi :: stmt_tokens next) with (map TkIdent (nm :: args) ++ pt "=" eq :: to_tokens e ++ pt ";" semi :: stmt_tokens next).
    apply text_app_punct; [discriminate | discriminate |]. exists ns, g2, (lit "=" ++ g3 ++ w ++ g4 ++ lit ";" ++ g5 ++ w2). repeat (split; [assumption || reflexivity |]).
    apply text_punct_app; [discriminate | now destruct (to_tokens e) |]. exists g3, (w ++ g4 ++ lit ";" ++ g5 ++ w2). repeat (split; [assumption || reflexivity |]).
    apply text_app_punct; [discriminate | exact E1 |]. exists w, g4, (lit ";" ++ g5 ++ w2). repeat (split; [assumption || reflexivity |]).
    apply text_punct_app; [discriminate | apply stmt_starts |]. exists g5, w2. auto.
Qed.
Lemma text_tokens_iff st s : shape_stmt st -> program_text st s ->
  (printable_stmt st -> exists ts, text_tokens s = Some ts /\ Forall2 same_token (stmt_tokens st) ts) /\ (~ printable_stmt st -> text_tokens s = None).
Proof.
  intros Hs (g & u & Hg & Hu & ->). destruct (stmt_text_tokens st Hs u Hu) as (w & g' & -> & Hw & Hg'). unfold text_tokens. rewrite (lex_gap g Hg) by (rewrite app_length; lia).
  destruct (proj2 lex_all _ _ Hw (stmt_goods st Hs) (S (length (g ++ w ++ g')) - length g) false g') as (ts & f & H1 & H2 & H3).
  { rewrite (app_length g). lia. }
  { destruct Hg' as [| c g' Hc _]; [apply nothing_follows | now apply neutral_follows, white_neutral]. }
  rewrite H3. rewrite <- clean_stmt. destruct (forallb cleanb (stmt_tokens st)).
  - split; [| intros E; now elim E]. intros _. exists ts. split; [| exact H1]. replace g' with (g' ++ []) by apply app_nil_r. rewrite (lex_gap g' Hg') by lia. destruct (f - length g') as [| f'] eqn:E; [lia |]. cbn. now rewrite app_nil_r.
  - split; [discriminate | reflexivity].
Qed.

(** ** What chomp reads *)
Lemma chomp_reads_some st s : shape_stmt st -> program_text st s -> printable_stmt st -> unreserved_stmt st ->
  exists st', chomp_reads s = Some st' /\ shape_stmt st' /\ program_text st' s /\ printable_stmt st'.
Proof.
  intros Hs Ht Hp Hu. destruct (proj1 (text_tokens_iff st s Hs Ht) Hp) as (ts & E & F). destruct (respan_stmt st Hs ts F) as (st' & Hs' & E' & Hu'). exists st'.
  assert (U : unreserved_stmt st') by (apply scan_stmt; rewrite E', <- (scans_same _ _ F); now apply scan_stmt).
  assert (P : printable_stmt st') by (apply clean_stmt; rewrite E', <- (cleans_same _ _ F); now apply clean_stmt).
  split; [| split; [exact Hs' |]; split; [| exact P]].
  - unfold chomp_reads. rewrite E. apply parse_program_iff. split; [now apply shape_wf_stmt | now symmetry].
  - destruct Ht as (g & u & Hg & Hu1 & ->). exists g, u. auto.
Qed.
Lemma chomp_reads_only st s st' : shape_stmt st -> program_text st s -> chomp_reads s = Some st' -> printable_stmt st /\ unreserved_stmt st.
Proof.
  intros Hs Ht E. unfold chomp_reads in E. destruct (text_tokens_iff st s Hs Ht) as [H1 H2]. destruct (forallb cleanb (stmt_tokens st)) eqn:C.
  - apply clean_stmt in C. split; [exact C |]. destruct (H1 C) as (ts & E1 & F). rewrite E1 in E. apply parse_program_iff in E as [W ->]. apply scan_stmt. rewrite (scans_same _ _ F). apply scan_stmt. now apply wf_unreserved_stmt.
  - rewrite H2 in E; [discriminate |]. rewrite <- clean_stmt. congruence.
Qed.
