(** * PropNibble: theorems about the surface language: parsing, names and
    conversion.

    Vocabulary: [parse_program] (the parser), [convert], [convert_stmt],
    [convert_program] (conversion, for any way [join] of joining positions),
    [wf_stmt], [stmt_tokens] (SpecSyntax, Nibble), [means_stmt], [undeclared],
    [let_names], [alpha_stmt], [given], [best] (SpecScope), [erase] (the
    expression without names and positions). *)
From Coq Require Import String.
From Verif Require Import ConvertFacts Examples.
From Coq Require Import List Lia.
Open Scope list_scope.

(** ** Examples *)
Definition idn (s : string) (p : span) : ident := Ident false (lit s) p.
Definition t_id (s : string) (p : span) : node := NIdent (idn s p).
Definition one (t : node) : node := NAltP [(NLabelled (NCatP [(NCall [t], None)]) None, None)].
(** [let twice x = x . x : pair; match twice "a" | "b";] *)
Definition ex_prog : stmt :=
  SLet 1 (idn "twice" 2) [idn "x" 3] 4
    (NAltP [(NLabelled (NCatP [(NCall [t_id "x" 5], Some 6%N); (NCall [t_id "x" 7], None)]) (Some (8%N, idn "pair" 9)), None)]) 10
    (SGoal 11 (NAltP [(NLabelled (NCatP [(NCall [t_id "twice" 12; NLiteral (lit "a") 13], None)]) None, Some 14%N);
                      (NLabelled (NCatP [(NCall [NLiteral (lit "b") 15], None)]) None, None)]) 16).
Definition ex_tokens : list token :=
  [kw "let" 1; TkIdent (idn "twice" 2); TkIdent (idn "x" 3); pt "=" 4; TkIdent (idn "x" 5); pt "." 6; TkIdent (idn "x" 7);
   pt ":" 8; TkIdent (idn "pair" 9); pt ";" 10; kw "match" 11; TkIdent (idn "twice" 12); TkStr (lit "a") 13; pt "|" 14;
   TkStr (lit "b") 15; pt ";" 16].
Definition no_join : span -> span -> option span := fun _ _ => None.

(** ** C53: the parser and the printer are inverse to each other *)
Theorem C53_parse_print : forall ts s, parse_program ts = Some s <-> wf_stmt s /\ ts = stmt_tokens s.
Proof. exact parse_program_iff. Qed.
Corollary wf_of_parse : forall s, parse_program (stmt_tokens s) = Some s -> wf_stmt s.
Proof. intros s H. now apply C53_parse_print in H. Qed.
Corollary C53_unambiguous : forall s t, wf_stmt s -> wf_stmt t -> stmt_tokens s = stmt_tokens t -> s = t.
Proof.
  intros s t Hs Ht E. pose proof (proj2 (C53_parse_print _ s) (conj Hs eq_refl)) as H1.
  pose proof (proj2 (C53_parse_print _ t) (conj Ht eq_refl)) as H2. rewrite E in H1. congruence.
Qed.
Print Assumptions C53_parse_print.
Example C53_ex : parse_program ex_tokens = Some ex_prog /\ parse_program (tl ex_tokens) = None
  /\ parse_program (ex_tokens ++ [pt ";" 17]) = None.
Proof. repeat split; vm_compute; reflexivity. Qed.

(** ** C47: names resolve to the innermost declaration *)
Theorem C47_scoping : forall join s l, wf_stmt s ->
  ((exists e, convert_program join s = Ok e /\ erase e = l) <-> means_stmt [] s l).
Proof.
  intros join s l Hw. destruct (convert_stmt_runs join s Hw []) as (r & Hr & S' & E & _). unfold convert_program. cbn [map] in E. rewrite E. cbn [fst].
  split.
  - intros (e & -> & <-). destruct (undeclared_stmt [] s); [| discriminate Hr]. destruct Hr as (e' & [= ->] & H). exact H.
  - intros H. rewrite (means_stmt_declared _ _ _ H) in Hr. destruct Hr as (e & -> & He). exists e. split; [reflexivity |].
    eapply means_stmt_fun; eassumption.
Qed.
(** In any scope, for phrases. *)
Theorem C47_scoping_phrase : forall join L n S l, wf L n ->
  ((exists e, fst (convert join n (map Spanned S)) = Ok e /\ erase e = l) <-> means S n l).
Proof.
  intros join L n S l Hw. destruct (convert_runs join n L Hw S) as (r & E & Hr). rewrite E. cbn [fst]. split.
  - intros (e & -> & <-). destruct (undeclared S n); [| discriminate Hr]. destruct Hr as (e' & [= ->] & H). exact H.
  - intros H. rewrite (means_declared _ _ _ H) in Hr. destruct Hr as (e & -> & He). exists e. split; [reflexivity |].
    eapply means_fun; eassumption.
Qed.
(** Every variable of a converted program is bound. *)
Theorem C47_closed : forall join s e, wf_stmt s -> convert_program join s = Ok e -> scoped 0 (erase e).
Proof.
  intros join s e Hw E. apply (means_stmt_scoped s []). apply (C47_scoping join s _ Hw). eauto.
Qed.
Print Assumptions C47_scoping.
Print Assumptions C47_scoping_phrase.
Print Assumptions C47_closed.
Example C47_ex : exists e, convert_program no_join ex_prog = Ok e
  /\ erase e = LLet (LLam 1 (LCat [LVar 0; LVar 0])) (LAlt [LCall (LVar 0) [LLit (lit "a")]; LLit (lit "b")]).
Proof. eexists. split; vm_compute; reflexivity. Qed.
(** Parameters shadow: [/x y x/ x y]. *)
Example C47_ex_shadow : forall p, means [idn "y" p] (NLambda p [idn "x" 1; idn "y" 2; idn "x" 3] p (one (t_id "x" 4))) (LLam 3 (LVar 0)).
Proof.
  intros p. apply (means_lambda _ _ [_; _; _]). do 4 constructor. constructor. split; [exists (idn "x" 3); split; [reflexivity | split; reflexivity] |].
  intros j z Hj. lia.
Qed.

(** ** C48: conversion fails exactly on undeclared names, and names the first *)
Theorem C48_undeclared : forall join s, wf_stmt s ->
  match undeclared_stmt [] s with
  | [] => exists e, convert_program join s = Ok e
  | x :: _ => convert_program join s = Err (UndeclaredName (new_variable (Spanned x)))
  end.
Proof.
  intros join s Hw. destruct (convert_stmt_runs join s Hw []) as (r & Hr & S' & E & _). unfold convert_program. cbn [map] in E. rewrite E. cbn [fst].
  destruct (undeclared_stmt [] s); [| exact Hr]. destruct Hr as (e & -> & _). eauto.
Qed.
(** A name is undeclared when it denotes nothing. *)
Theorem C48_undeclared_spec : forall S x, undeclared S (NIdent x) = [] <-> exists i, denotes S x i.
Proof.
  intros S x. cbn. destruct (existsb (sameb x) S) eqn:E.
  - split; [| reflexivity]. intros _. destruct (position (Spanned x) (map Spanned S)) as [i |] eqn:Ep.
    + exists i. now apply position_denotes.
    + apply position_none in Ep. congruence.
  - split; [discriminate |]. intros [i Hi]. apply position_denotes in Hi. apply position_none in E. congruence.
Qed.
Print Assumptions C48_undeclared.
Print Assumptions C48_undeclared_spec.
Example C48_ex : exists s, wf_stmt s /\ undeclared_stmt [] s = [idn "y" 5; idn "z" 7]
  /\ convert_program no_join s = Err (UndeclaredName (new_variable (Spanned (idn "y" 5)))).
Proof.
  exists (SLet 1 (idn "f" 2) [idn "x" 3] 4 (one (t_id "y" 5)) 6 (SGoal 11 (one (t_id "z" 7)) 8)). split; [| split; reflexivity].
  apply wf_of_parse. vm_compute. reflexivity.
Qed.

(** ** C49: the context of names *)
Theorem C49_context_restored : forall join n ctx, snd (convert join n ctx) = ctx.
Proof. intros join n ctx. apply convert_keeps. Qed.
(** A statement leaves the let-names it has got past; all of them if it succeeds. *)
Theorem C49_context_extended : forall join s ctx, exists j,
  snd (convert_stmt join s ctx) = map Spanned (skipn j (let_names s)) ++ ctx
  /\ (forall e, fst (convert_stmt join s ctx) = Ok e -> j = 0).
Proof. exact convert_stmt_adds. Qed.
Print Assumptions C49_context_restored.
Print Assumptions C49_context_extended.
Example C49_ex : snd (convert_stmt no_join ex_prog [Spanned (idn "q" 0)]) = [Spanned (idn "twice" 2); Spanned (idn "q" 0)].
Proof. reflexivity. Qed.

(** ** C50: renaming *)
Theorem C50_renaming : forall join join' s t e, wf_stmt s -> wf_stmt t -> alpha_stmt [] s t -> convert_program join s = Ok e ->
  exists e', convert_program join' t = Ok e' /\ erase e' = erase e.
Proof.
  intros join join' s t e Hs Ht Ha E. apply (C47_scoping join' t _ Ht). apply (alpha_means_stmt s [] t); [exact Ha |].
  apply (C47_scoping join s _ Hs). eauto.
Qed.
Print Assumptions C50_renaming.
Example C50_ex : exists t, alpha_stmt [] ex_prog t /\ let_names t = [idn "x" 0] /\ wf_stmt t.
Proof.
  exists (SLet 0 (idn "x" 0) [idn "twice" 0] 0
    (NAltP [(NLabelled (NCatP [(NCall [t_id "twice" 0], Some 0%N); (NCall [t_id "twice" 0], None)]) None, None)]) 0
    (SGoal 0 (NAltP [(NLabelled (NCatP [(NCall [t_id "x" 0; NLiteral (lit "a") 0], None)]) None, Some 0%N);
                      (NLabelled (NCatP [(NCall [NLiteral (lit "b") 0], None)]) None, None)]) 0)).
  split; [| split; [reflexivity |]].
  - constructor; [reflexivity | |].
    + constructor. cbn. repeat constructor.
    + constructor. constructor. cbn. repeat constructor.
  - apply wf_of_parse. vm_compute. reflexivity.
Qed.

(** ** C51: merging names *)
Lemma merge_all_snoc l x : merge_all (l ++ [x]) = merge (merge_all l) x.
Proof. unfold merge_all. now rewrite fold_left_app. Qed.
Theorem C51_merge : forall a b c : option name,
  merge a (merge b c) = merge (merge a b) c /\ merge None a = a /\ merge a None = a.
Proof. intros a b c. split; [apply merge_assoc |]. destruct a; auto. Qed.
Theorem C51_merge_all : forall l n, merge_all l = Some n <-> best l n.
Proof.
  intros l. induction l as [| x l IH] using rev_ind; intros n.
  - split; [discriminate |]. intros (l1 & l2 & E & _). destruct l1; discriminate E.
  - rewrite merge_all_snoc. split.
    + intros H. destruct (merge_all l) as [m |] eqn:E.
      * destruct (proj1 (IH m) eq_refl) as (l1 & l2 & -> & H1 & H2). destruct x as [y |]; cbn [merge] in H.
        -- destruct (kind_ge (n_kind m) (n_kind y)) eqn:Ek; injection H as <-.
           ++ exists l1, (l2 ++ [Some y]). rewrite <- app_assoc. split; [reflexivity |]. split; [exact H1 |].
              intros k Hk. apply in_app_iff in Hk as [Hk | [[= <-] | []]]; [now apply H2 |]. now apply kind_ge_rank.
           ++ assert (Hlt : rank m < rank y).
              { destruct (Nat.le_gt_cases (rank y) (rank m)) as [Hle | Hlt]; [| exact Hlt]. apply kind_ge_rank in Hle. congruence. }
              exists (l1 ++ Some m :: l2), []. split; [reflexivity |]. split; [| intros k []].
              intros k Hk. apply in_app_iff in Hk as [Hk | [[= <-] | Hk]]; [specialize (H1 _ Hk); lia | exact Hlt | specialize (H2 _ Hk); lia].
        -- injection H as <-. exists l1, (l2 ++ [None]). rewrite <- app_assoc. split; [reflexivity |]. split; [exact H1 |].
           intros k Hk. apply in_app_iff in Hk as [Hk | [Hk | []]]; [now apply H2 | discriminate Hk].
      * cbn in H. subst x. exists l, []. split; [reflexivity |]. split; [| intros k []]. intros m Hm. exfalso.
        apply in_split in Hm as (l1 & l2 & ->). assert (Hx : forall k, merge_all (l1 ++ Some m :: l2) <> Some k) by (intros k; rewrite E; discriminate).
        clear -Hx. destruct (merge_all (l1 ++ Some m :: l2)) as [k |] eqn:Ek; [now apply (Hx k) |].
        change (Some m :: l2) with ([Some m] ++ l2) in Ek. unfold merge_all in Ek. rewrite !fold_left_app in Ek. cbn in Ek.
        assert (Hs : forall q o, (exists z, o = Some z) -> exists z, fold_left merge q o = Some z).
        { induction q as [| y q IHq]; intros o Ho; [exact Ho |]. cbn. apply IHq. destruct Ho as [z ->]. destruct y; cbn; [destruct (kind_ge _ _) |]; eauto. }
        destruct (Hs l2 (merge (fold_left merge l1 None) (Some m))) as [z Hz]; [| congruence].
        destruct (fold_left merge l1 None); cbn; [destruct (kind_ge _ _) |]; eauto.
    + intros (l1 & l2 & E & H1 & H2). destruct l2 as [| y l2] using rev_ind.
      * apply app_inj_tail in E as [-> ->]. destruct (merge_all l1) as [m |] eqn:Em; [| reflexivity]. cbn.
        destruct (proj1 (IH m) eq_refl) as (k1 & k2 & -> & _ & _).
        assert (Hlt : rank m < rank n) by (apply H1; apply in_app_iff; right; now left).
        destruct (kind_ge (n_kind m) (n_kind n)) eqn:Ek; [| reflexivity]. apply kind_ge_rank in Ek. unfold rank in Hlt. lia.
      * change (Some n :: l2 ++ [y]) with ((Some n :: l2) ++ [y]) in E. rewrite app_assoc in E. apply app_inj_tail in E as [-> ->]. clear IHl2.
        rewrite (proj2 (IH n)).
        -- destruct y as [y |]; [| reflexivity]. cbn. assert (Hle : rank y <= rank n) by (apply H2; apply in_app_iff; right; now left).
           apply kind_ge_rank in Hle. now rewrite Hle.
        -- exists l1, l2. split; [reflexivity |]. split; [exact H1 |]. intros k Hk. apply H2. apply in_app_iff. now left.
Qed.
Theorem C51_merge_all_none : forall l, merge_all l = None <-> forall x, In x l -> x = None.
Proof.
  intros l. split.
  - intros H [n |] Hn; [| reflexivity]. exfalso. revert n Hn H. induction l as [| x l IH] using rev_ind; intros n Hn H; [destruct Hn |].
    rewrite merge_all_snoc in H. apply in_app_iff in Hn as [Hn | [-> | []]].
    + apply (IH n Hn). destruct (merge_all l); [| reflexivity]. destruct x; cbn in H; [destruct (kind_ge _ _) |]; discriminate H.
    + destruct (merge_all l); cbn in H; [destruct (kind_ge _ _) |]; discriminate H.
  - intros H. destruct (merge_all l) as [n |] eqn:E; [| reflexivity]. apply C51_merge_all in E as (l1 & l2 & -> & _).
    specialize (H (Some n)). rewrite in_app_iff in H. discriminate H. right. now left.
Qed.
Print Assumptions C51_merge.
Print Assumptions C51_merge_all.
Print Assumptions C51_merge_all_none.
Example C51_ex : merge_all [None; Some (nvar "x"); Some (nlet "l"); None; Some (nlet "m"); Some (nvar "y")] = Some (nlet "l").
Proof. reflexivity. Qed.

(** ** C52: equality of names *)
Theorem C52_equality : forall a b, content_eqb a a = true /\ content_eqb a b = content_eqb b a
  /\ (content_eqb a b = true -> content_hash_key a = content_hash_key b).
Proof.
  assert (R : forall x y, rstr_eqb x y = rstr_eqb y x).
  { intros x y. apply Bool.eq_iff_eq_true. rewrite !rstr_eqb_eq. split; auto. }
  intros [i | s] [j | t]; cbn; unfold ident_eqb; repeat split.
  - rewrite Bool.eqb_reflx. apply rstr_eqb_refl.
  - rewrite (R (id_sym i)). f_equal. destruct (id_raw i), (id_raw j); reflexivity.
  - intros H. apply andb_true_iff in H as [_ H]. now apply rstr_eqb_eq.
  - rewrite Bool.eqb_reflx. apply rstr_eqb_refl.
  - intros H. now apply rstr_eqb_eq.
  - apply rstr_eqb_refl.
  - intros H. apply rstr_eqb_eq in H. auto.
  - apply rstr_eqb_refl.
  - apply R.
  - intros H. now apply rstr_eqb_eq.
Qed.
(** Equality is not transitive. *)
Theorem C52_transitive_refuted : exists a b c, content_eqb a b = true /\ content_eqb b c = true /\ content_eqb a c = false.
Proof. exists (Spanned (Ident true (lit "x") 0%N)), (Spanless (lit "x")), (Spanned (Ident false (lit "x") 0%N)). repeat split. Qed.
(** That is the only way it fails: a raw and a plain identifier of the same
    word, compared through a string. *)
Theorem C52_transitive_exact : forall a b c, content_eqb a b = true -> content_eqb b c = true ->
  (content_eqb a c = false <-> exists i j s, a = Spanned i /\ b = Spanless s /\ c = Spanned j /\ id_raw i <> id_raw j).
Proof.
  assert (X : forall i j, ident_eqb i j = true <-> id_raw i = id_raw j /\ id_sym i = id_sym j).
  { intros i j. unfold ident_eqb. rewrite andb_true_iff, Bool.eqb_true_iff, rstr_eqb_eq. reflexivity. }
  intros [i | s] [j | t] [k | u]; cbn; intros H1 H2;
    rewrite ?X, ?rstr_eqb_eq in H1; rewrite ?X, ?rstr_eqb_eq in H2;
    (split; [intros H; apply Bool.not_true_iff_false in H; rewrite ?X, ?rstr_eqb_eq in H | intros (x & y & z & E1 & E2 & E3 & Hr); try discriminate]).
  all: try (exfalso; apply H; intuition congruence).
  - exists i, k, t. repeat split. intros E. apply H. split; congruence.
  - injection E1 as <-. injection E3 as <-. apply Bool.not_true_iff_false. rewrite X. tauto.
Qed.
(** Exactly when two names are equal: of the same kind and the same word, and if
    both are identifiers, both raw or neither. *)
Theorem C52_names : forall a b, name_eqb a b = true <->
  n_kind a = n_kind b /\ content_hash_key (n_content a) = content_hash_key (n_content b)
  /\ forall i j, n_content a = Spanned i -> n_content b = Spanned j -> id_raw i = id_raw j.
Proof.
  intros [ca ka] [cb kb]. unfold name_eqb. cbn [n_content n_kind]. rewrite andb_true_iff.
  assert (K : kind_eqb ka kb = true <-> ka = kb) by (destruct ka, kb; cbn; split; intros; congruence). rewrite K.
  destruct ca as [i | s], cb as [j | t]; cbn; unfold ident_eqb; rewrite ?andb_true_iff, ?Bool.eqb_true_iff, ?rstr_eqb_eq.
  - split; [intros ((H1 & H2) & H3); repeat split; try congruence; intros i' j' [= <-] [= <-]; exact H1 | intros (H1 & H2 & H3); repeat split; auto].
  - split; [intros (H1 & H2); repeat split; try congruence; intros; discriminate | intros (H1 & H2 & _); split; congruence].
  - split; [intros (H1 & H2); repeat split; try congruence; intros; discriminate | intros (H1 & H2 & _); split; congruence].
  - split; [intros (H1 & H2); repeat split; try congruence; intros; discriminate | intros (H1 & H2 & _); split; congruence].
Qed.
Print Assumptions C52_names.
Example C52_ex_names : name_eqb (nvar "x") (nvar "x") = true /\ name_eqb (nvar "x") (nlet "x") = false.
Proof. split; reflexivity. Qed.
Print Assumptions C52_equality.
Print Assumptions C52_transitive_exact.

(** ** C65: names come from labels and identifiers *)
Lemma convert_name join n : forall ctx e, fst (convert join n ctx) = Ok e -> e_name e = given n.
Proof.
  induction n using node_ind'; intros ctx e E; cbn [convert given] in *.
  - injection E as <-. reflexivity.
  - destruct (lookup ctx _); [| discriminate E]. injection E as <-. reflexivity.
  - injection E as <-. reflexivity.
  - unfold bind in E. destruct (convert join n ctx) as [[x | | |] ?]; try discriminate E. injection E as <-. reflexivity.
  - eapply IHn; eassumption.
  - destruct ts as [| t ts]; [discriminate E |]. unfold bind in E. inversion H as [| ? ? Ht _]; subst. specialize (Ht ctx).
    destruct (convert join t ctx) as [[x | | |] ctx1]; try discriminate E. destruct ts as [| t' ts].
    + cbn in E. injection E as <-. now apply Ht.
    + cbn [convert_args] in E. unfold bind in E. destruct (convert join t' ctx1) as [[y | | |] ctx2]; try discriminate E.
      destruct (convert_args (convert join) ts ctx2) as [[l | | |] ctx3]; try discriminate E. cbn in E. injection E as <-. reflexivity.
  - destruct ps as [| [t p] ts]; [discriminate E |]. unfold bind in E. inversion H as [| ? ? Ht _]; subst. specialize (Ht ctx). cbn [fst] in Ht.
    destruct (convert join t ctx) as [[x | | |] ctx1]; try discriminate E. destruct ts as [| [t' p'] ts].
    + cbn in E. injection E as <-. now apply Ht.
    + cbn [convert_rest] in E. unfold bind in E. destruct (convert join t' ctx1) as [[y | | |] ctx2]; try discriminate E.
      destruct (convert_rest (convert join) (pair_span p') ts ctx2) as [[l | | |] ctx3]; try discriminate E. cbn in E. injection E as <-. reflexivity.
  - unfold bind in E. specialize (IHn ctx). destruct (convert join n ctx) as [[x | | |] ?]; try discriminate E. cbn [fst ret] in E. injection E as <-.
    specialize (IHn x eq_refl). assert (Hn : e_name (set_ann (Ann (merge (match l with Some (_, i) => Some (new_label (Spanned i)) | None => None end) (e_name x)) (node_span join (NLabelled n l))) x)
      = merge (match l with Some (_, i) => Some (new_label (Spanned i)) | None => None end) (e_name x)) by (destruct x; reflexivity).
    rewrite Hn, IHn. destruct l as [[sp i] |]; [| reflexivity]. cbn. destruct (given n) as [[? []] |]; reflexivity.
  - destruct ps as [| [t p] ts]; [discriminate E |]. unfold bind in E. inversion H as [| ? ? Ht _]; subst. specialize (Ht ctx). cbn [fst] in Ht.
    destruct (convert join t ctx) as [[x | | |] ctx1]; try discriminate E. destruct ts as [| [t' p'] ts].
    + cbn in E. injection E as <-. now apply Ht.
    + cbn [convert_rest] in E. unfold bind in E. destruct (convert join t' ctx1) as [[y | | |] ctx2]; try discriminate E.
      destruct (convert_rest (convert join) (pair_span p') ts ctx2) as [[l | | |] ctx3]; try discriminate E. cbn in E. injection E as <-. reflexivity.
  - unfold bind in E. destruct (with_variables _ (convert join n) ctx) as [[x | | |] ?]; try discriminate E. injection E as <-. reflexivity.
Qed.
Theorem C65_names : forall join n ctx e, fst (convert join n ctx) = Ok e -> e_name e = given n.
Proof. exact convert_name. Qed.
(** A goal without a name is called [Ast]; a definition is called by its
    let-name, whatever label it carries. *)
Theorem C65_goal_name : forall join k n semi ctx e, fst (convert_stmt join (SGoal k n semi) ctx) = Ok e ->
  e_name e = Some (match given n with Some x => x | None => new_variable (Spanless (lit "Ast")) end).
Proof.
  intros join k n semi ctx e E. cbn [convert_stmt] in E. unfold bind in E. pose proof (convert_name join n ctx) as Hn.
  destruct (convert join n ctx) as [[x | | |] ?]; try discriminate E. cbn [fst ret] in E. injection E as <-. specialize (Hn x eq_refl).
  assert (He : forall a, e_name (set_ann a x) = a_name a) by (intros a; destruct x; reflexivity). rewrite He. cbn [a_name]. rewrite Hn.
  destruct (given n) as [[? []] |]; reflexivity.
Qed.
Theorem C65_let_name : forall join k x args eq n semi next ctx e, fst (convert_stmt join (SLet k x args eq n semi next) ctx) = Ok e ->
  exists a bound body, e = ELet a (new_let (Spanned x)) bound body /\ e_name bound = Some (new_let (Spanned x)) /\ a_name a = None.
Proof.
  intros join k x args eq n semi next ctx e E. cbn [convert_stmt] in E. set (b := match args with [] => convert join n | _ :: _ => _ end) in E.
  clearbody b. unfold bind in E. destruct (b ctx) as [[y | | |] ctx1]; try discriminate E.
  destruct (convert_stmt join next _) as [[z | | |] ?]; try discriminate E. cbn in E. injection E as <-. do 3 eexists. split; [reflexivity |].
  split; [| reflexivity]. destruct y; reflexivity.
Qed.
Print Assumptions C65_names.
Print Assumptions C65_goal_name.
Print Assumptions C65_let_name.
Example C65_ex : given (NParen 0 (NAltP [(NLabelled (NCatP [(NCall [t_id "x" 5], None)]) (Some (8%N, idn "pair" 9)), None)])) = Some (new_label (Spanned (idn "pair" 9)))
  /\ exists e, convert no_join (NParen 0 (NAltP [(NLabelled (NCatP [(NCall [t_id "x" 5], None)]) (Some (8%N, idn "pair" 9)), None)])) [Spanned (idn "x" 0)] = (Ok e, [Spanned (idn "x" 0)]).
Proof. split; [reflexivity |]. eexists. reflexivity. Qed.

(** ** C66: positions *)
Theorem C66_positions : forall join s e, wf_stmt s -> convert_program join s = Ok e -> located_stmt join s e.
Proof. intros join s e Hw. exact (convert_stmt_located join s Hw []  e). Qed.
Theorem C66_positions_phrase : forall join L n ctx e, wf L n -> fst (convert join n ctx) = Ok e -> located join n e.
Proof. intros join L n ctx e Hw. exact (convert_located join n L Hw ctx e). Qed.
Print Assumptions C66_positions.
Print Assumptions C66_positions_phrase.
Example C66_ex : exists e a b c r, convert_program (fun a b => Some (100 * a + b)%N) ex_prog = Ok e
  /\ e = ELet a b c (EAlt (Ann (Some (new_variable (Spanless (lit "Ast")))) 1116) (ECall (Ann None 1213) (EVar (Ann (Some (new_variable (Spanned (idn "twice" 12)))) 12) 0) [ELit (Ann None 13) (lit "a")]) r)
  /\ map fst r = [14%N] /\ a_span a = 116%N.
Proof. do 5 eexists. repeat split; vm_compute; reflexivity. Qed.
