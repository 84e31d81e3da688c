(** * SourceRespan: programs with other spans. *)
From Coq Require Import String.
From Verif Require Export SourceFacts AutoFront.
From Coq Require Import List Lia.
Import ListNotations.
Open Scope list_scope.

Lemma wf_idents l ts' : Forall2 same_token (map TkIdent l) ts' -> Forall parameter l -> exists l', ts' = map TkIdent l' /\ Forall parameter l' /\ length l' = length l.
Proof.
  revert ts'. induction l as [| i l IH]; intros ts' H Hn; cbn [map] in H.
  - inversion H; subst. exists []. auto.
  - apply Forall_cons_iff in Hn as [Hi Hn]. apply cons_token in H as (t & ts & -> & Ht & H). destruct (IH ts H Hn) as (l' & -> & Hn' & E). inversion Ht; subst. exists (Ident (id_raw i) (id_sym i) sp :: l').
    split; [reflexivity |]. split; [constructor; [exact Hi | exact Hn'] |]. cbn. now rewrite E.
Qed.
Lemma wf_respan_pairs L ps : (forall n, wf L n -> In n (map fst ps) -> forall ts', Forall2 same_token (to_tokens n) ts' -> exists n', wf L n' /\ to_tokens n' = ts') ->
  punctuated (wf L) ps -> forall ts', Forall2 same_token (pairs_tokens to_tokens (sep_of L) ps) ts' -> exists ps', punctuated (wf L) ps' /\ pairs_tokens to_tokens (sep_of L) ps' = ts'.
Proof.
  intros IH H. revert IH. induction H as [n Hn | n sp l Hn Hl IHl]; intros IH ts' H'.
  - cbn [pairs_tokens] in H'. rewrite !app_nil_r in H'. destruct (IH n Hn (or_introl eq_refl) _ H') as (n' & Hn' & E). exists [(n', None)]. split; [now constructor |]. cbn [pairs_tokens]. now rewrite !app_nil_r.
  - rewrite pt_pairs in H'. apply Forall2_app_inv_l in H' as (a & b & Ha & Hb & ->). apply cons_token in Hb as (t & c & -> & Ht & Hc). apply pt_token in Ht as [sp' ->].
    destruct (IH n Hn (or_introl eq_refl) _ Ha) as (n' & Hn' & E). destruct (IHl (fun m Hm Hi => IH m Hm (or_intror Hi)) c Hc) as (ps' & Hps & E'). exists ((n', Some sp') :: ps'). split; [now constructor |]. rewrite pt_pairs. now rewrite E, E'.
Qed.
Lemma wf_respan n : forall L, wf L n -> forall ts', Forall2 same_token (to_tokens n) ts' -> exists n', wf L n' /\ to_tokens n' = ts'.
Proof.
  induction n as [sp | i | v sp | b t IH | sp e IH | ts IH | ps IH | c l IH | ps IH | l args r e IH] using node_ind'; intros L H ts' H'; cbn [to_tokens] in H'.
  1-5: assert (L = LvTerm) as -> by (inversion H; subst; [reflexivity | match goal with H : wf LvAlt _ |- _ => inversion H end]).
  - apply one_token in H' as (t & -> & Ht). apply kw_token in Ht as [sp' ->]. exists (NEpsilon sp'). split; [constructor | reflexivity].
  - apply one_token in H' as (t & -> & Ht). inversion Ht; subst. eexists (NIdent _). split; [constructor | reflexivity]. assert (Hi : ~ underscore i) by now inversion H. exact Hi.
  - apply one_token in H' as (t & -> & Ht). inversion Ht; subst. eexists (NLiteral v _). split; [constructor | reflexivity].
  - apply cons_token in H' as (x & ts & -> & Hx & H'). apply pt_token in Hx as [sp' ->]. destruct (IH LvTerm) with (ts' := ts) as (n' & Hn' & E); [now inversion H | exact H' |]. exists (NFix sp' n'). split; [now constructor |]. cbn [to_tokens]. now rewrite E.
  - apply one_token in H' as (t & -> & Ht). inversion Ht as [| | | ? sp' ? ts Hts]; subst. destruct (IH LvExpr) with (ts' := ts) as (n' & Hn' & E); [now inversion H | exact Hts |]. exists (NParen sp' n'). split; [now constructor |]. cbn [to_tokens]. now rewrite E.
  - assert (Ht : L = LvCall /\ ts <> [] /\ Forall (wf LvTerm) ts).
    { inversion H; subst; [split; [reflexivity |]; split; [discriminate | now constructor] | match goal with H : wf LvAlt _ |- _ => inversion H end]. }
    destruct Ht as (-> & Hne & Hts). assert (exists ls, Forall (wf LvTerm) ls /\ flat_map to_tokens ls = ts' /\ length ls = length ts) as (ls & Hls & E & El).
    { clear H Hne. revert ts' H'. induction IH as [| n ts Hn _ IH]; intros ts' H'; cbn [flat_map] in H'; [inversion H'; exists []; auto |]. apply Forall_cons_iff in Hts as [Hn' Hts].
      apply Forall2_app_inv_l in H' as (a & b & Ha & Hb & ->). destruct (Hn LvTerm Hn' a Ha) as (m & Hm & Em). destruct (IH Hts b Hb) as (ls & Hls & E & El). exists (m :: ls). split; [now constructor |]. cbn [flat_map length]. now rewrite Em, E, El. }
    destruct ls as [| m ls]; [destruct ts; [now elim Hne | discriminate] |]. apply Forall_cons_iff in Hls as [Hm Hls]. exists (NCall (m :: ls)). split; [now constructor | exact E].
  - assert (Ht : L = LvCat /\ punctuated (wf LvCall) ps).
    { inversion H; subst; [split; auto | match goal with H : wf LvAlt _ |- _ => inversion H end]. }
    destruct Ht as [-> Hps]. destruct (wf_respan_pairs LvCall ps) with (ts' := ts') as (ps' & Hps' & E); [| exact Hps | exact H' | exists (NCatP ps'); split; [now constructor | exact E]].
    intros n Hn Hi. apply in_map_iff in Hi as (x & <- & Hx). rewrite Forall_forall in IH. now apply IH.
  - assert (Ht : L = LvLabelled /\ wf LvCat c).
    { inversion H; subst; [split; auto | match goal with H : wf LvAlt _ |- _ => inversion H end]. }
    destruct Ht as (-> & Hc). apply Forall2_app_inv_l in H' as (a & b & Ha & Hb & ->). destruct (IH _ Hc _ Ha) as (c' & Hc' & E). destruct l as [[sp i] |].
    + apply cons_token in Hb as (t & l' & -> & Ht & Hb). apply pt_token in Ht as [sp' ->]. apply one_token in Hb as (t & -> & Ht). inversion Ht; subst. eexists (NLabelled c' (Some (sp', _))). split; [| cbn [to_tokens]; reflexivity].
      constructor. exact Hc'.
    + inversion Hb; subst. exists (NLabelled c' None). split; [constructor; exact Hc' | reflexivity].
  - assert (Ht : (L = LvAlt \/ L = LvExpr) /\ punctuated (wf LvLabelled) ps).
    { inversion H; subst; [split; auto | match goal with H : wf LvAlt _ |- _ => inversion H; subst end; auto]. }
    destruct Ht as [HL Hps]. destruct (wf_respan_pairs LvLabelled ps) with (ts' := ts') as (ps' & Hps' & E); [| exact Hps | exact H' | exists (NAltP ps'); split; [destruct HL as [-> | ->]; repeat constructor; exact Hps' | exact E]].
    intros n Hn Hi. apply in_map_iff in Hi as (x & <- & Hx). rewrite Forall_forall in IH. now apply IH.
  - assert (Ht : L = LvExpr /\ wf LvAlt e /\ args <> [] /\ Forall parameter args).
    { inversion H; subst; [match goal with H : wf LvAlt _ |- _ => inversion H end | split; [auto |]; split; [auto |]; split; [discriminate | now constructor]]. }
    destruct Ht as (-> & He & Hne & Hn). apply cons_token in H' as (t & ts & -> & Ht & H'). apply pt_token in Ht as [l' ->]. apply Forall2_app_inv_l in H' as (a & b & Ha & Hb & ->).
    apply cons_token in Hb as (t & ts & -> & Ht & H'). apply pt_token in Ht as [r' ->]. destruct (IH _ He _ H') as (e' & He' & E). destruct (wf_idents _ _ Ha Hn) as (args' & -> & Hn' & El).
    destruct args' as [| i args']; [destruct args; [now elim Hne | discriminate] |]. apply Forall_cons_iff in Hn' as [Hi Hn']. exists (NLambda l' (i :: args') r' e'). split; [now constructor |]. cbn [to_tokens]. now rewrite E.
Qed.
Lemma wf_respan_stmt st : wf_stmt st -> forall ts', Forall2 same_token (stmt_tokens st) ts' -> exists st', wf_stmt st' /\ stmt_tokens st' = ts'.
Proof.
  induction st as [k e semi | k nm args eq e semi next IH]; intros S ts' H; inversion S; subst; cbn [stmt_tokens] in H.
  - apply cons_token in H as (t & l & -> & Ht & H). apply kw_token in Ht as [k' ->]. apply Forall2_app_inv_l in H as (a & b & Ha & Hb & ->). apply one_token in Hb as (t & -> & Ht). apply pt_token in Ht as [semi' ->].
    destruct (wf_respan e LvExpr) with (ts' := a) as (e' & He' & E); [assumption | exact Ha |]. exists (SGoal k' e' semi'). split; [now constructor |]. cbn [stmt_tokens]; now rewrite E.
  - apply cons_token in H as (t & l & -> & Ht & H). apply kw_token in Ht as [k' ->]. apply cons_token in H as (t & l' & -> & Ht & H). apply Forall2_app_inv_l in H as (a & b & Ha & Hb & ->).
    apply cons_token in Hb as (t' & l & -> & Ht' & H). apply pt_token in Ht' as [eq' ->]. apply Forall2_app_inv_l in H as (c & d & Hc & Hd & ->). apply cons_token in Hd as (t' & l & -> & Ht' & H). apply pt_token in Ht' as [semi' ->].
    destruct (wf_respan e LvExpr) with (ts' := c) as (e' & He' & E); [assumption | exact Hc |]. destruct (IH ltac:(assumption) l H) as (next' & Hnext & E'). destruct (wf_idents _ _ Ha ltac:(assumption)) as (args' & -> & Hn' & El).
    inversion Ht; subst. exists (SLet k' (Ident (id_raw nm) (id_sym nm) sp) args' eq' e' semi' next'). split; [constructor; assumption |]. reflexivity.
Qed.
Lemma source_respan ts s after : source ts s after -> forall ts', Forall2 same_token ts ts' -> source ts' s after.
Proof.
  induction 1 as [after | c ts s after Hc _ IH | c a sp ts s after Hc Ha Hn _ IH | v w sp ts s after Hw Hn _ IH | c sp ts s after Hc Hn _ IH | ts1 w sp ts s after H1 IH1 _ IH]; intros ts' H.
  - inversion H; subst. constructor.
  - constructor; auto.
  - apply cons_token in H as (t & l & -> & Ht & H). inversion Ht; subst. cbn [id_raw id_sym]. apply src_ident; auto.
  - apply cons_token in H as (t & l & -> & Ht & H). inversion Ht; subst. apply src_str; auto.
  - apply cons_token in H as (t & l & -> & Ht & H). inversion Ht; subst. apply src_punct; auto.
  - apply cons_token in H as (t & l & -> & Ht & H). inversion Ht; subst. apply src_group; auto.
Qed.
