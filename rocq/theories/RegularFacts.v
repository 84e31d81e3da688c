(** * RegularFacts: a grammar for every automaton. *)
From Coq Require Import String.
From Verif Require Export SpecRegular LangFacts InferMore.
From Coq Require Import List Lia.
Import ListNotations.
Open Scope list_scope.

Fixpoint index_of (q : nat) (l : list nat) : option nat :=
  match l with [] => None | p :: l' => if Nat.eqb p q then Some 0 else option_map S (index_of q l') end.
Lemma index_some q l i : index_of q l = Some i -> nth_error l i = Some q.
Proof.
  revert i. induction l as [| p l IH]; intros i; cbn [index_of]; [discriminate |]. destruct (Nat.eqb_spec p q) as [-> |]; [intros [= <-]; reflexivity |].
  destruct (index_of q l); [| discriminate]. intros [= <-]. cbn. now apply IH.
Qed.
Lemma index_none q l : index_of q l = None -> ~ In q l.
Proof.
  induction l as [| p l IH]; cbn [index_of]; [tauto |]. destruct (Nat.eqb_spec p q); [discriminate |]. destruct (index_of q l); [discriminate |]. intros _ [H | H]; [congruence | now apply IH].
Qed.
Definition alts (l : list gram) : gram := match l with [g] => g | _ => GAlt l end.
Section Build.
  Variable A : dfa.
  (** The grammar of the state [q], the states of [scope] being bound; one state
      more is bound at each of [k] steps. *)
  Fixpoint build (k : nat) (scope : list nat) (q : nat) : gram :=
    match index_of q scope with
    | Some i => GVar i
    | None =>
      match k with
      | O => GEps
      | S k' => GFix (alts (map (fun c => GCat [GLit [c]; build k' (q :: scope) (next A q c)]) (alphabet A) ++ (if final A q then [GEps] else [])))
      end
    end.
  Definition branches k scope q := map (fun c => GCat [GLit [c]; build k (q :: scope) (next A q c)]) (alphabet A) ++ (if final A q then [GEps] else []).
  Lemma build_new k scope q : index_of q scope = None -> build (S k) scope q = GFix (alts (branches k scope q)).
  Proof. intros E. cbn [build]. rewrite E. reflexivity. Qed.
  Lemma build_old k scope q i : index_of q scope = Some i -> build k scope q = GVar i.
  Proof. intros E. destruct k; cbn [build]; rewrite E; reflexivity. Qed.
  (** Enough steps. *)
  Definition enough (k : nat) (scope : list nat) : Prop := NoDup scope /\ (forall p, In p scope -> p < states A) /\ states A <= k + length scope.
  Lemma enough_new k scope q : enough (S k) scope -> index_of q scope = None -> q < states A -> enough k (q :: scope).
  Proof.
    intros (H1 & H2 & H3) E Hq. split; [constructor; [now apply index_none | exact H1] |]. split; [intros p [<- | Hp]; auto |]. cbn. lia.
  Qed.
  Lemma enough_zero scope q : enough 0 scope -> q < states A -> index_of q scope = None -> False.
  Proof.
    intros (H1 & H2 & H3) Hq E. apply index_none in E.
    assert (L : length (q :: scope) <= length (seq 0 (states A))). { apply NoDup_incl_length; [now constructor |]. intros p [<- | Hp]; apply in_seq; [lia | specialize (H2 p Hp); lia]. }
    rewrite seq_length in L. cbn in L. lia.
  Qed.

  (** ** The language *)
  Lemma alts_lang env l w : lang_of env (alts l) w <-> lang_alts env l w.
  Proof. destruct l as [| g [| g' l]]; cbn [alts]; rewrite ?lang_of_alt; [reflexivity | cbn [lang_alts]; unfold lang_empty; tauto | reflexivity]. Qed.
  Lemma lang_alts_In env l w : lang_alts env l w <-> exists g, In g l /\ lang_of env g w.
  Proof.
    induction l as [| g l IH]; cbn [lang_alts In]; [split; [intros [] | intros (g & [] & _)] |]. rewrite IH. split.
    - intros [H | (x & Hx & H)]; eauto.
    - intros (x & [<- | Hx] & H); eauto.
  Qed.
  Lemma branches_lang env k scope q w : lang_of env (alts (branches k scope q)) w <->
    (w = [] /\ final A q = true) \/ exists c w', w = c :: w' /\ In c (alphabet A) /\ lang_of env (build k (q :: scope) (next A q c)) w'.
  Proof.
    rewrite alts_lang, lang_alts_In. unfold branches. split.
    - intros (g & Hg & Hw). apply in_app_iff in Hg as [Hg | Hg].
      + apply in_map_iff in Hg as (c & <- & Hc). rewrite lang_of_cat in Hw. destruct Hw as (u & v & -> & Hu & (v1 & v2 & -> & Hv & Hv2)). cbn in Hu, Hv2. subst u v2. right. exists c, v1. rewrite app_nil_r. auto.
      + destruct (final A q); [| destruct Hg]. destruct Hg as [<- | []]. left. auto.
    - intros [[-> Hf] | (c & w' & -> & Hc & Hw)].
      + exists GEps. rewrite Hf. split; [apply in_app_iff; right; now left | reflexivity].
      + exists (GCat [GLit [c]; build k (q :: scope) (next A q c)]). split; [apply in_app_iff; left; apply in_map_iff; eauto |]. rewrite lang_of_cat. exists [c], w'. split; [reflexivity |]. split; [reflexivity |].
        exists w', []. split; [now rewrite app_nil_r |]. split; [exact Hw | reflexivity].
  Qed.
  Hypothesis HA : dfa_ok A.
  Lemma build_sound k : forall scope env q w, enough k scope -> q < states A ->
    (forall i p u, nth_error scope i = Some p -> nth i env lang_empty u -> accepts A p u) ->
    lang_of env (build k scope q) w -> accepts A q w.
  Proof.
    induction k as [| k IH]; intros scope env q w He Hq Henv; destruct (index_of q scope) as [i |] eqn:E.
    - rewrite (build_old _ _ _ _ E). apply (Henv i q w). now apply index_some.
    - exfalso. eapply enough_zero; eauto.
    - rewrite (build_old _ _ _ _ E). apply (Henv i q w). now apply index_some.
    - rewrite (build_new _ _ _ E). rewrite lang_of_fix. intros [n Hn]. revert w Hn. induction n as [| n IHn]; intros w Hn; [destruct Hn |].
      rewrite approx_S in Hn. apply branches_lang in Hn as [[-> Hf] | (c & w' & -> & Hc & Hw)]; [exact Hf |]. cbn [accepts]. split; [exact Hc |].
      eapply IH; [apply enough_new; eauto | apply HA; auto | | exact Hw]. intros [| i] p u Hp Hu; cbn in Hp, Hu; [injection Hp as <-; now apply IHn | eauto].
  Qed.
  Lemma build_complete m : forall k scope env q w, enough k scope -> q < states A ->
    (forall i p u, nth_error scope i = Some p -> length u <= m -> accepts A p u -> nth i env lang_empty u) ->
    length w <= m -> accepts A q w -> lang_of env (build k scope q) w.
  Proof.
    induction m as [| m IH]; intros k scope env q w He Hq Henv Hl Hw; destruct (index_of q scope) as [i |] eqn:E.
    1, 3: rewrite (build_old _ _ _ _ E); apply (Henv i q w); auto; now apply index_some.
    - destruct k as [| k]; [exfalso; eapply enough_zero; eauto |]. rewrite (build_new _ _ _ E). apply lang_fix_unfold, branches_lang. destruct w as [| c w]; [left; auto | cbn in Hl; lia].
    - destruct k as [| k]; [exfalso; eapply enough_zero; eauto |]. rewrite (build_new _ _ _ E). apply lang_fix_unfold, branches_lang. destruct w as [| c w]; [left; auto |]. right. destruct Hw as [Hc Hw]. exists c, w. split; [reflexivity |]. split; [exact Hc |].
      apply IH; [now apply enough_new | now apply HA | | cbn in Hl; lia | exact Hw]. intros [| i] p u Hp Hu Ha; cbn in Hp |- *; [injection Hp as <- | apply (Henv i p u); auto; lia].
      change (lang_of env (GFix (alts (branches k scope q))) u). rewrite <- (build_new _ _ _ E). apply IH; auto. intros i p v Hi Hv. apply (Henv i p v Hi). lia.
  Qed.

  (** ** Its type *)
  Definition sty (q : nat) : stype := ST (final A q = true) (fun c => In c (alphabet A)) (fun c => In c (alphabet A)).
  Lemma typed_branches_app G l : forall t t1 l' t', typed_branches G t l t1 -> typed_branches G t1 l' t' -> typed_branches G t (l ++ l') t'.
  Proof. induction l as [| g l IH]; intros t t1 l' t' H H'; inversion H; subst; [exact H' |]. cbn. econstructor; eauto. Qed.
  Definition cat_ty (c : char) (p : nat) : stype := st_cat (st_lit [c]) (sty p).
  Lemma build_typed k : forall scope G q, enough k scope -> q < states A ->
    (forall i p, nth_error scope i = Some p -> nth_error G i = Some (true, sty p)) -> exists t, typed G (build k scope q) t /\ st_eq t (sty q).
  Proof.
    induction k as [| k IH]; intros scope G q He Hq HG; destruct (index_of q scope) as [i |] eqn:E.
    1, 3: rewrite (build_old _ _ _ _ E); exists (sty q); split; [constructor; apply HG; now apply index_some | split; split; tauto].
    - exfalso. eapply enough_zero; eauto.
    - rewrite (build_new _ _ _ E). exists (sty q). split; [| split; split; tauto].
      enough (exists t, typed ((false, sty q) :: G) (alts (branches k scope q)) t /\ st_eq t (sty q)) as (t & Ht & Hs) by (econstructor; eauto).
      set (G' := (false, sty q) :: G).
      assert (Hc : forall c, In c (alphabet A) -> exists t, typed G' (GCat [GLit [c]; build k (q :: scope) (next A q c)]) t /\ ~ s_null t /\ (forall d, s_first t d <-> d = c) /\ (forall d, s_flast t d <-> In d (alphabet A))).
      { intros c Hc. destruct (IH (q :: scope) (unguard G') (next A q c)) as (t & Ht & (S1 & S2 & S3) & (S4 & S5 & S6)); [now apply enough_new | now apply HA | |].
        { intros [| i] p Hp; cbn in Hp |- *; [now injection Hp as <- |]. apply HG in Hp. rewrite nth_error_map, Hp. reflexivity. }
        exists (st_cat (st_lit [c]) t). split.
        - econstructor; [constructor | discriminate |]. econstructor; [exact Ht | split; [discriminate | intros d []] |]. constructor.
        - cbn. split; [intros [X _]; discriminate |]. split.
          + intros d. split; [intros [[w [= <- _]] | [X _]]; [reflexivity | discriminate] | intros ->; left; now exists []].
          + intros d. split; [intros [X | [_ [X | []]]]; [now apply S3 | now apply S2] | intros X; left; now apply S6]. }
      assert (Hr : forall l, incl l (alphabet A) -> forall t0, NoDup l -> ~ s_null t0 -> (forall d, s_first t0 d -> ~ In d l) ->
        exists t, typed_branches G' t0 (map (fun c => GCat [GLit [c]; build k (q :: scope) (next A q c)]) l) t /\ ~ s_null t /\ (forall d, s_first t d <-> s_first t0 d \/ In d l) /\ (forall d, s_flast t d -> s_flast t0 d \/ In d (alphabet A)) /\ (forall d, s_flast t0 d -> s_flast t d)).
      { induction l as [| c l IHl]; intros Hi t0 Hn N0 F0.
        - exists t0. split; [constructor |]. cbn. repeat split; tauto.
        - inversion Hn as [| ? ? Hc0 Hn']; subst. destruct (Hc c (Hi c (or_introl eq_refl))) as (tc & Tc & Nc & Fc & Lc).
          destruct (IHl (fun x Hx => Hi x (or_intror Hx)) (st_alt t0 tc)) as (t & Tt & Nt & Ft & Lt & Lt'); [exact Hn' | cbn; tauto | |].
          { intros d [Hd | Hd]; [intros X; apply (F0 d Hd); now right | apply Fc in Hd; now subst]. }
          exists t. split; [| split; [exact Nt |]; split; [| split]].
          + cbn [map]. econstructor; [exact Tc | | exact Tt]. split; [tauto |]. intros d Hd Hd'. apply Fc in Hd'. subst. apply (F0 c Hd). now left.
          + intros d. rewrite Ft. cbn. rewrite (Fc d). intuition.
          + intros d Hd. apply Lt in Hd as [[Hd | Hd] | Hd]; [tauto | right; now apply Lc | tauto].
          + intros d Hd. apply Lt'. now left. }
      destruct HA as (Hne & Hnd & _). unfold branches. destruct (alphabet A) as [| c l] eqn:Ea; [congruence |]. inversion Hnd as [| ? ? Hc0 Hn']; subst.
      destruct (Hc c (or_introl eq_refl)) as (tc & Tc & Nc & Fc & Lc).
      destruct (Hr l (fun x Hx => or_intror Hx) tc Hn' Nc) as (t & Tt & Nt & Ft & Lt & Lt'); [intros d Hd; apply Fc in Hd; now subst |].
      assert (Ft' : forall d, s_first t d <-> In d (c :: l)) by (intros d; rewrite Ft, Fc; cbn; intuition).
      assert (Fl : forall d, s_flast t d <-> In d (c :: l)) by (intros d; split; [intros Hd; apply Lt in Hd as [Hd | Hd]; [now apply Lc | exact Hd] | intros Hd; apply Lt'; now apply Lc]).
      assert (Hsty : forall t', (s_null t' <-> final A q = true) -> (forall d, s_first t' d <-> s_first t d) -> (forall d, s_flast t' d <-> s_flast t d) -> st_eq t' (sty q)).
      { intros t' N1 F1 L1. unfold sty. rewrite Ea. split; (split; [cbn; tauto |]; split; intros d; cbn [s_first s_flast]; [rewrite F1, Ft' | rewrite L1, Fl]; tauto). }
      destruct (final A q) eqn:Ef.
      + exists (st_alt t st_eps). split.
        * cbn [map app]. destruct (map _ l ++ [GEps]) as [| g gs] eqn:Eg; [destruct (map _ l); discriminate Eg |]. cbn [alts]. rewrite <- Eg. econstructor; [exact Tc |]. eapply typed_branches_app; [exact Tt |].
          econstructor; [constructor | | constructor]. split; [tauto |]. intros d _ [].
        * apply Hsty; cbn; [intuition congruence | tauto | tauto].
      + exists t. rewrite app_nil_r. split.
        * destruct l as [| c' l]; [cbn [map alts]; inversion Tt; subst; exact Tc |]. cbn [map alts]. econstructor; [exact Tc |]. exact Tt.
        * apply Hsty; [split; [tauto | congruence] | tauto | tauto].
  Qed.
End Build.
