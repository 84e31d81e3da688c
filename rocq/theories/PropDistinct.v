(** * PropDistinct: no definition is generated twice.

    Vocabulary: [compiles] (PropGen), [same_definition], [grammar_size],
    [no_epsilon], [no_raw] (SpecDistinct), [gen] (the generator itself,
    [GenerateCode::gen]), [texpr_eqb] (the [==] of typed expressions). *)
From Coq Require Import String.
From Verif Require Import DistinctFacts ShareFacts InferMore Examples PropGen.
From Coq Require Import List.
Open Scope list_scope.

Theorem C83_distinct : forall cs e r tab root, compiles cs e r tab root ->
  forall i j x y, def_of tab i = Some x -> def_of tab j = Some y -> same_definition x y -> i = j.
Proof. intros cs e r tab root [_ (b & Hg & ->)]. exact (proj1 (generate_distinct cs r b root Hg)). Qed.
Print Assumptions C83_distinct.

Theorem C83_size : forall cs e r tab root g, compiles cs e r tab root -> gram_of e = Some g -> length tab <= grammar_size g.
Proof.
  intros cs e r tab root g [E (b & Hg & ->)] Hgr. destruct (typecheck_typed e r E) as (g' & s & Hg' & Hr & _). rewrite Hgr in Hg'. injection Hg' as <-. rewrite <- Hr, tsize_gram.
  exact (proj2 (generate_distinct cs r b root Hg)).
Qed.
Print Assumptions C83_size.

(** Once types have been generated for some expressions, an expression equal to
    one of them needs no new type and gets the same one. *)
Theorem C83_again : forall cs l b ids k x x' id,
  Forall no_raw (x' :: l) ->
  gen_list (gen cs) l bst_default = Some (b, ids) ->
  nth_error l k = Some x -> nth_error ids k = Some id -> no_epsilon x -> texpr_eqb x x' = true ->
  gen cs x' b = Some (b, id).
Proof. intros cs l b ids k x x' id S. inversion S; subst. eapply generate_again; eauto. Qed.
Print Assumptions C83_again.

(** Equal parts of a sequence have the same type. *)
Theorem C83_parts : forall cs e a l t tab root, compiles cs e (TCat a l t) tab root -> no_raw (TCat a l t) ->
  exists named parts ids, def_of tab root = Some (DCat named parts ids) /\ length ids = length l /\
    forall k k' x x', nth_error l k = Some x -> nth_error l k' = Some x' -> no_epsilon x -> no_epsilon x' -> texpr_eqb x x' = true ->
      nth_error ids k = nth_error ids k'.
Proof.
  intros cs e a l t tab root [E (b & Hg & ->)] S. apply typecheck_wt in E.
  pose proof Hg as Hg'. unfold generate in Hg'. rewrite gen_cat_eq in Hg'. destruct (gen_list (gen cs) l bst_default) as [[b1 ids]|] eqn:El; [| discriminate].
  assert (Sl : Forall no_raw l) by (eapply noraw_parts; exact S).
  apply gen_total in Hg. rewrite gen_cat_eq in Hg. destruct (gen_list (gen (total cs)) l bst_default) as [[b2 ids2]|] eqn:El2; [| discriminate].
  assert (L : Forall (fun e => exists G, map snd G = map (tau []) (context bst_default) /\ wt G e) l).
  { inversion E; subst. constructor; [exists (@nil (bool * ty)); auto |]. match goal with X : wt_seq _ _ _ _ |- _ => apply wt_seq_all in X; eapply Forall_impl; [| exact X] end. intros y Hy. exists (ung []). auto. }
  destruct (gen_list_spec (total cs) l) with (b := bst_default) (m := @nil (ty * nat)) as (b3 & ids3 & m3 & E3 & R); auto.
  { apply Forall_forall. intros y _. apply gen_spec. } { apply inv_default. } { apply Forall_forall. intros y _. apply total_names. } { intros y f _ []. }
  rewrite El2 in E3. injection E3 as <- <-. destruct (gen_cat_def _ _ _ _ _ _ _ _ (g_inv _ _ _ _ _ _ _ R) Hg) as [(n & p & Hd) _].
  assert (Hids : ids2 = ids).
  { clear - El El2. revert b1 ids b2 ids2 El El2. generalize bst_default as b0. induction l as [| x l IH]; intros b0 b1 ids b2 ids2 E1 E2; cbn [gen_list] in *; [congruence |].
    destruct (gen cs x b0) as [[c i]|] eqn:Ex; [| discriminate]. rewrite (gen_total cs x _ _ Ex) in E2.
    destruct (gen_list (gen cs) l c) as [[d is]|] eqn:Ey; [| discriminate]. destruct (gen_list (gen (total cs)) l c) as [[d' is']|] eqn:Ez; [| discriminate].
    injection E1 as <- <-. injection E2 as <- <-. f_equal. eapply IH; eauto. }
  subst ids2. exists n, p, ids. split; [exact Hd |]. split.
  - assert (K0 : keyed bst_default) by constructor. exact (proj1 (gen_list_nth cs l Sl _ _ _ K0 El)).
  - intros k k' x x' Hk Hk' N N' Eq. exact (generate_parts cs l b1 ids k k' x x' Sl El Hk Hk' N N' Eq).
Qed.
Print Assumptions C83_parts.

(** ["x".("p" | "q").("p" | "q")]: five types for eight nodes. *)
Definition ex_twice : nexpr := cat3 (L "x") (alt2 (L "p") (L "q")) (alt2 (L "p") (L "q")).
Example C83_ex : exists r tab root, compiles cs0 ex_twice r tab root /\ length tab = 5 /\ no_raw r /\
  match r with TCat _ [_; x; x'] _ => texpr_eqb x x' = true /\ no_epsilon x | _ => False end.
Proof.
  eexists _, _, _. split; [split; [vm_compute; reflexivity | eexists; split; [vm_compute; reflexivity | reflexivity]] |].
  split; [reflexivity |]. split; [constructor |]. split; [reflexivity |]. cbn. auto.
Qed.

(** With epsilon the claim is false of the source text that is generated: every
    epsilon is a type of its own to the generator, so ["x".(_ | "p").("x".(_ | "p"))]
    gives two enums with the same branch types. *)
Definition type_text (tab : table) (i : nat) : option tname := option_map en_name (nth_error tab i).
Definition ex_eps_twice : nexpr := let opt := alt2 (EEps a0) (L "p") in cat2 (cat2 (L "x") opt) (cat2 (L "x") opt).
Theorem C83_epsilon_refuted : exists r tab root i j p ids f n al c ids',
  compiles cs0 ex_eps_twice r tab root /\ i <> j /\ def_of tab i = Some (DAlt p ids f n al c) /\ def_of tab j = Some (DAlt p ids' f n al c)
  /\ map (type_text tab) ids = map (type_text tab) ids' /\ no_raw r.
Proof.
  eexists _, _, _, 3, 6, _, _, _, _, _, _, _. split; [split; [vm_compute; reflexivity | eexists; split; [vm_compute; reflexivity | reflexivity]] |].
  split; [discriminate |]. split; [reflexivity |]. split; [reflexivity |]. split; [reflexivity |]. constructor.
Qed.
Print Assumptions C83_epsilon_refuted.
