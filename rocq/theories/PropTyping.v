(** * PropTyping: theorems about sets, types and type inference. *)
From Coq Require Import Sorted String.
From Verif Require Import InferMore Examples.
Open Scope list_scope.

(** ** C10: first/flast sets are mathematical sets *)
(** The sets that the public operations can build. *)
Inductive built : list char -> Prop :=
| built_new : built cset_new
| built_str s : built (cset_of_str s)
| built_union s t : built s -> built t -> built (cset_union s t).

Lemma built_ok s : built s -> cset_ok s.
Proof. induction 1; [apply cset_ok_nil|apply cset_of_str_ok|apply cset_union_ok; assumption]. Qed.

Theorem C10_sets_are_sets :
  (forall c, ~ In c cset_new)
  /\ (forall s c, In c (cset_of_str s) <-> exists w, s = c :: w)
  /\ (forall s t c, In c (cset_union s t) <-> In c s \/ In c t)
  /\ (forall s t, cset_disjoint s t = true <-> ~ exists c, In c s /\ In c t)
  /\ (forall s, cset_is_empty s = true <-> ~ exists c, In c s)
  /\ (forall s, built s -> StronglySorted N.lt s)
  /\ (forall s t, built s -> built t -> (cset_eqb s t = true <-> forall c, In c s <-> In c t)).
Proof.
  split; [intros c []|]. split; [intros s c; apply cset_of_str_In|]. split; [intros s t c; apply cset_union_In|].
  split; [|split; [|split]].
  - intros s t. rewrite cset_disjoint_spec. split; [intros H (c & H1 & H2); eauto|intros H c H1 H2; apply H; eauto].
  - intros s. rewrite cset_is_empty_spec. split; [intros H [c Hc]; exact (H c Hc)|intros H c Hc; apply H; eauto].
  - exact built_ok.
  - intros s t Hs Ht. apply cset_eqb_ext; apply built_ok; assumption.
Qed.
Print Assumptions C10_sets_are_sets.
Example C10_ex : built (cset_union (cset_of_str (lit "zx")) (cset_of_str (lit "ay")))
  /\ cset_union (cset_of_str (lit "zx")) (cset_of_str (lit "ay")) = lit "az".
Proof. split; [repeat constructor|reflexivity]. Qed.

(** ** C11: type operations over-approximate language operations *)
Theorem C11_type_operations :
  (forall w, describes (st_of (ty_of_str w)) (fun v => v = w))
  /\ (forall s t L M, describes (st_of s) L -> describes (st_of t) M ->
        nullable s = false -> cset_disjoint (flast_set s) (first_set t) = true ->
        describes (st_of (ty_cat s t)) (fun w => exists u v, w = u ++ v /\ L u /\ M v))
  /\ (forall s t L M, describes (st_of s) L -> describes (st_of t) M ->
        (nullable s && nullable t) = false -> cset_disjoint (first_set s) (first_set t) = true ->
        describes (st_of (ty_alt s t)) (fun w => L w \/ M w)).
Proof.
  split; [|split].
  - intros w. eapply describes_le; [apply st_of_str|apply describes_lit].
  - intros s t L M HL HM Hn Hd. eapply describes_le; [apply st_of_cat|].
    apply describes_cat; auto. rewrite cset_disjoint_spec in Hd. split; [cbn; congruence|exact Hd].
  - intros s t L M HL HM Hn Hd. eapply describes_le; [apply st_of_alt|].
    apply describes_alt; auto. rewrite cset_disjoint_spec in Hd. split; [|exact Hd].
    intros [H1 H2]. cbn in H1, H2. rewrite H1, H2 in Hn. discriminate.
Qed.
Print Assumptions C11_type_operations.
(** The alternation part without the two checks would be false of [flast]: the
    words "a" and "ab" come from different branches. *)
Example C11_alt_needs_apart :
  ~ describes (st_of (ty_alt (ty_of_str (lit "a")) (ty_of_str (lit "ab"))))
      (fun w => w = lit "a" \/ w = lit "ab").
Proof.
  intros (_ & _ & H). apply (H (lit "a") (chr "b") []); [discriminate|left; reflexivity|right; reflexivity].
Qed.
Example C11_ex : nullable (ty_of_str (lit "a")) = false
  /\ cset_disjoint (flast_set (ty_of_str (lit "a"))) (first_set (ty_of_str (lit "b"))) = true.
Proof. split; reflexivity. Qed.

(** ** C12: the guard rule of the typing context *)
(** The history of a context: binders entered (with their types) and unguards,
    the most recent first. *)
Inductive event := Bind (t : ty) | Unguard.
Fixpoint ctx_after (h : list event) : tctx :=
  match h with
  | [] => TCtx [] []
  | Bind t :: h' => push_var t (ctx_after h')
  | Unguard :: h' => push_unguard (ctx_after h')
  end.
(** [visible h i]: the [i]-th innermost binder of the history, with whether
    some unguard came after it. *)
Fixpoint visible (after : bool) (h : list event) (i : nat) : option (ty * bool) :=
  match h with
  | [] => None
  | Unguard :: h' => visible true h' i
  | Bind t :: h' => match i with O => Some (t, after) | S i' => visible after h' i' end
  end.

Lemma ctx_after_wf h : ctx_wf (ctx_after h).
Proof. induction h as [|[t|] h IH]; [apply ctx_wf_default|apply ctx_wf_var; exact IH|apply ctx_wf_unguard]. Qed.
Lemma visible_true h i : visible true h i = option_map (fun p => (fst p, true)) (visible false h i).
Proof.
  revert i; induction h as [|[t|] h IH]; intros i; cbn; [reflexivity| |].
  - destruct i; [reflexivity|]. apply IH.
  - destruct (visible true h i) as [[t b]|] eqn:E; [|reflexivity]. rewrite IH in E.
    destruct (visible false h i) as [[t' b']|]; [|discriminate]. cbn in *. congruence.
Qed.
Lemma visible_env h i : nth_error (env_of (ctx_after h)) i = option_map (fun p => (snd p, st_of (fst p))) (visible false h i)
  /\ nth_error (vars (ctx_after h)) i = option_map fst (visible false h i).
Proof.
  revert i; induction h as [|[t|] h IH]; intros i; cbn [ctx_after visible].
  - split; destruct i; reflexivity.
  - rewrite env_of_var by apply ctx_after_wf. destruct i as [|i]; [split; reflexivity|]. exact (IH i).
  - rewrite env_of_unguard. cbn [push_unguard vars]. unfold unguard. rewrite nth_error_map. destruct (IH i) as [-> ->].
    rewrite visible_true. destruct (visible false h i) as [[t b]|]; split; reflexivity.
Qed.

Theorem C12_guard_rule : forall h i,
  get_variable_type (ctx_after h) i =
  match visible false h i with
  | Some (t, true) => Ok t
  | Some (_, false) => Err GuardedVariable
  | None => Err FreeVariable
  end.
Proof.
  intros h i. rewrite get_variable_type_spec. destruct (visible_env h i) as [-> ->].
  destruct (visible false h i) as [[t []]|]; reflexivity.
Qed.
Print Assumptions C12_guard_rule.
(** Inference with the context threaded as mutable state leaves it unchanged
    on every outcome, and computes the same result. *)
Theorem C12_context_restored : forall fuel nm e c, infer_st fuel nm e c = (infer fuel nm c e, c).
Proof. intros fuel nm e c. exact (infer_st_spec e fuel nm c). Qed.
Print Assumptions C12_context_restored.
Example C12_ex : let h := [Bind ty_eps; Unguard; Bind (ty_of_str (lit "a"))] in
  get_variable_type (ctx_after h) 0 = Err GuardedVariable
  /\ get_variable_type (ctx_after h) 1 = Ok (ty_of_str (lit "a"))
  /\ get_variable_type (ctx_after h) 2 = Err FreeVariable.
Proof. repeat split. Qed.

(** ** C13: type inference terminates *)
Theorem C13_inference_terminates : forall e nm c, reachable_ctx c ->
  exists bound result, ((exists r, result = Ok r) \/ (exists x, result = Err x))
    /\ forall fuel, bound <= fuel -> infer fuel nm c e = result.
Proof.
  intros e nm c Hc. destruct (infer_total e nm c Hc) as (fuel & x & H1 & H2 & H). exists fuel, x.
  split; [|exact H]. destruct x; eauto; contradiction.
Qed.
Print Assumptions C13_inference_terminates.
(** For a whole program the bound is linear in its number of literal characters. *)
Theorem C13_program_bound : forall e,
  (exists r, typecheck e = Ok r) \/ (exists x, typecheck e = Err x).
Proof.
  intros e. destruct (typecheck_total e) as [H1 H2]. destruct (typecheck e); eauto; contradiction.
Qed.
Print Assumptions C13_program_bound.
(** The fixed-point loop really iterates: two rounds do not suffice here. *)
Example C13_ex : infer 2 None tctx_default ex_nested = OutOfFuel /\ is_ok (typecheck ex_nested) = true.
Proof. split; vm_compute; reflexivity. Qed.

(** ** C14: inference accepts exactly the typable grammars *)
Theorem C14_accepts_exactly_typable : forall e nm c, reachable_ctx c ->
  (exists fuel r, infer fuel nm c e = Ok r) <-> (exists g s, gram_of e = Some g /\ typed (env_of c) g s).
Proof. exact infer_accepts. Qed.
Print Assumptions C14_accepts_exactly_typable.
Theorem C14_program : forall e,
  (exists r, typecheck e = Ok r) <-> (exists g s, gram_of e = Some g /\ typed [] g s).
Proof. exact typecheck_accepts. Qed.
Print Assumptions C14_program.
Example C14_ex_accepted : is_ok (typecheck ex_nested) = true.
Proof. vm_compute. reflexivity. Qed.
Example C14_ex_rejected : is_ok (typecheck ex_overlap) = false.
Proof. vm_compute. reflexivity. Qed.

(** ** C15: the inferred type is the least one *)
Theorem C15_inferred_type_is_least : forall e fuel nm c r, reachable_ctx c -> infer fuel nm c e = Ok r ->
  exists g s, gram_of e = Some g /\ typed (env_of c) g s /\ st_eq s (st_of (get_type r)) /\
              forall s', typed (env_of c) g s' -> st_le (st_of (get_type r)) s'.
Proof. exact infer_least. Qed.
Print Assumptions C15_inferred_type_is_least.
(** Several types are derivable for [fix r. "a" . r]-like grammars, so leastness says something. *)
Example C15_ex : exists s s', typed [] (GFix (GAlt [GCat [GLit (lit "a"); GVar 0]; GLit (lit "b")])) s
  /\ typed [] (GFix (GAlt [GCat [GLit (lit "a"); GVar 0]; GLit (lit "b")])) s' /\ ~ st_le s' s.
Proof.
  exists (ST False (fun c => c = chr "a" \/ c = chr "b") (fun _ => False)),
         (ST False (fun c => c = chr "a" \/ c = chr "b") (fun c => c = chr "z")).
  assert (H : forall F : char -> Prop, typed [] (GFix (GAlt [GCat [GLit (lit "a"); GVar 0]; GLit (lit "b")]))
               (ST False (fun c => c = chr "a" \/ c = chr "b") F)).
  { intros F. econstructor.
    - eapply typed_alt.
      + eapply typed_cat; [apply typed_lit|cbn; discriminate|]. eapply typed_seq_cons; [apply typed_var; reflexivity| |apply typed_seq_nil].
        split; [cbn; discriminate|cbn; tauto].
      + eapply typed_branches_cons; [apply typed_lit| |apply typed_branches_nil].
        split; [cbn; intros [_ ?]; discriminate|]. cbn. intros c [[w E]|[E _]] [w' E']; [|discriminate].
        injection E as <- _. discriminate.
    - split; (split; [|split]); cbn.
      + intros [[E _]|E]; discriminate.
      + intros c [[[w E]|[E _]]|[w E]]; try discriminate; injection E as <- _; auto.
      + intros c [[H|[H0 _]]|H0]; [exact H|destruct H0|destruct H0].
      + intros [].
      + intros c [-> | ->]; [left; left|right]; exists []; reflexivity.
      + auto. }
  split; [apply H|]. split; [apply H|]. intros (_ & _ & X). apply (X (chr "z")). reflexivity.
Qed.

(** ** C16: the inferred type describes the language *)
Theorem C16_type_describes_language : forall e r g, typecheck e = Ok r -> gram_of e = Some g ->
  (language g [] -> nullable (get_type r) = true)
  /\ (forall c w, language g (c :: w) -> In c (first_set (get_type r)))
  /\ (forall u c v, u <> [] -> language g u -> language g (u ++ c :: v) -> In c (flast_set (get_type r))).
Proof. exact typecheck_describes. Qed.
Print Assumptions C16_type_describes_language.
(** The fixed points of [language] are the least solutions of their equations. *)
Theorem C16_language_fix_solution : forall env g w,
  lang_of env (GFix g) w <-> lang_of (lang_of env (GFix g) :: env) g w.
Proof. exact lang_fix_unfold. Qed.
Theorem C16_language_fix_least : forall env g M,
  (forall w, lang_of (M :: env) g w -> M w) -> forall w, lang_of env (GFix g) w -> M w.
Proof. exact lang_fix_least. Qed.
Print Assumptions C16_language_fix_least.

(** ** C17: nullable is exact *)
Theorem C17_nullable_exact : forall e r g, typecheck e = Ok r -> gram_of e = Some g ->
  (nullable (get_type r) = true <-> language g []).
Proof. exact typecheck_nullable. Qed.
Print Assumptions C17_nullable_exact.
Example C17_ex : exists r, typecheck (alt2 (L "a") (EEps a0)) = Ok r /\ nullable (get_type r) = true.
Proof. eexists. split; reflexivity. Qed.

(** ** C18: inference keeps the grammar *)
Theorem C18_structure_kept : forall e fuel nm c r, infer fuel nm c e = Ok r -> keeps nm e r.
Proof. exact infer_keeps. Qed.
Print Assumptions C18_structure_kept.
Theorem C18_grammar_kept : forall e r, typecheck e = Ok r -> gram_of e = Some (gram_of_t r).
Proof. intros e r E. destruct (typecheck_typed e r E) as (g & s & -> & <- & _). reflexivity. Qed.
Print Assumptions C18_grammar_kept.

(** ** C19: left recursion is rejected *)
Theorem C19_left_recursion_rejected : forall e g, gram_of e = Some g -> left_recursive [] g ->
  exists x, typecheck e = Err x.
Proof.
  intros e g Hg Hl. destruct (C13_program_bound e) as [[r E]|H]; [exfalso|exact H].
  destruct (typecheck_typed e r E) as (g' & s & Hg' & _ & Ht & _).
  rewrite Hg in Hg'. injection Hg' as <-.
  exact (proj2 (proj1 typed_guarded _ _ _ Ht [] (Forall2_nil _)) Hl).
Qed.
Print Assumptions C19_left_recursion_rejected.
Example C19_ex : exists g, gram_of ex_leftrec = Some g /\ left_recursive [] g.
Proof. eexists. split; [reflexivity|]. cbn. auto. Qed.
(** Hidden left recursion, behind an empty word, is covered too. *)
Example C19_ex_hidden : exists g, gram_of (fix1 "r" (alt2 (cat2 (alt2 (EEps a0) (L "x")) (V 0)) (L "b"))) = Some g
  /\ left_recursive [] g.
Proof. eexists. split; [reflexivity|]. cbn. left. left. right. split; auto. Qed.

(** ** C26: accepted grammars are unambiguous *)
Theorem C26_unambiguous : forall e r g t1 t2, typecheck e = Ok r -> gram_of e = Some g ->
  parse_tree g t1 -> parse_tree g t2 -> yield t1 = yield t2 -> t1 = t2.
Proof.
  intros e r g t1 t2 E Hg. destruct (typecheck_typed e r E) as (g' & s & Hg' & _ & Ht & _).
  rewrite Hg in Hg'. injection Hg' as <-.
  exact (proj1 typed_unamb _ _ _ Ht [] (Forall2_nil _) t1 t2).
Qed.
Print Assumptions C26_unambiguous.
(** The words of a grammar are the texts of its trees. *)
Theorem C26_words_are_yields : forall g w, language g w <-> exists t, parse_tree g t /\ yield t = w.
Proof. exact language_trees. Qed.
Print Assumptions C26_words_are_yields.

(** ** C61: first and flast sets are exact for productive grammars *)
Theorem C61_sets_exact : forall e r g, typecheck e = Ok r -> gram_of e = Some g -> productive [] g ->
  (forall c, In c (first_set (get_type r)) <-> exists w, language g (c :: w))
  /\ (forall c, In c (flast_set (get_type r)) <-> exists u v, u <> [] /\ language g u /\ language g (u ++ c :: v)).
Proof.
  intros e r g E Hg Hp. destruct (typecheck_exact e r g E Hg Hp) as (_ & R1 & R2).
  destruct (typecheck_describes e r g E Hg) as (_ & D1 & D2). split; intros c; split; auto.
  - intros [w Hw]. exact (D1 c w Hw).
  - intros (u & v & Hu & H1 & H2). exact (D2 u c v Hu H1 H2).
Qed.
Print Assumptions C61_sets_exact.
(** Without a word in every sub-grammar they are not: [!(/r/ "a" . r)]. *)
Theorem C61_unproductive_inexact : exists e r g, typecheck e = Ok r /\ gram_of e = Some g
  /\ In (chr "a") (first_set (get_type r)) /\ forall w, ~ language g w.
Proof.
  exists ex_empty. eexists. eexists. split; [vm_compute; reflexivity|]. split; [reflexivity|].
  split; [vm_compute; auto|]. intros w Hw. change (lang_empty w). revert w Hw. apply (lang_fix_least [] (GCat [GLit (lit "a"); GVar 0])).
  intros w (u & v & _ & _ & v1 & v2 & _ & Hv & _). exact Hv.
Qed.
Example C61_ex : exists r g, typecheck (fix1 "r" (alt2 (cat2 (L "a") (V 0)) (L "b"))) = Ok r
  /\ gram_of (fix1 "r" (alt2 (cat2 (L "a") (V 0)) (L "b"))) = Some g /\ productive [] g.
Proof.
  eexists. eexists. split; [vm_compute; reflexivity|]. split; [reflexivity|].
  assert (Hb : lang_of [] (GFix (GAlt [GCat [GLit (lit "a"); GVar 0]; GLit (lit "b")])) (lit "b")).
  { exists 1. cbn. auto. }
  set (g := GFix _) in *.
  assert (Hab : lang_of [] g (lit "ab")).
  { exists 2. cbn. left. exists (lit "a"), (lit "b"). split; [reflexivity|]. split; [reflexivity|].
    exists (lit "b"), []. auto. }
  assert (Hcat : exists w, lang_of (lang_of [] g :: []) (GCat [GLit (lit "a"); GVar 0]) w).
  { exists (lit "ab"), (lit "a"), (lit "b"). split; [reflexivity|]. split; [reflexivity|].
    exists (lit "b"), []. split; [reflexivity|]. split; [exact Hb|reflexivity]. }
  split; [exists (lit "b"); exact Hb|].
  split; [exists (lit "b"); cbn; auto|].
  split; [|split; [|exact I]].
  - split; [exact Hcat|]. split; [split; [exists (lit "a"); reflexivity|exact I]|].
    split; [split; [exists (lit "b"); exact Hb|exact I]|exact I].
  - split; [exists (lit "b"); reflexivity|exact I].
Qed.

(** ** C62: an accepted fixed point is the only solution of its equation *)
Theorem C62_unique_solution : forall e r g M, typecheck e = Ok r -> gram_of e = Some (GFix g) ->
  (forall w, M w <-> lang_of [M] g w) -> forall w, M w <-> language (GFix g) w.
Proof.
  intros e r g M E Hg HM. destruct (typecheck_typed e r E) as (g' & s & Hg' & _ & Ht & _).
  rewrite Hg in Hg'. injection Hg' as <-. exact (typed_fix_unique [] g s [] M Ht (Forall2_nil _) HM).
Qed.
Print Assumptions C62_unique_solution.
(** A left-recursive equation has many solutions. *)
Example C62_ex_many : forall w, (fun _ : list N => True) w <-> lang_of [fun _ => True] (GVar 0) w.
Proof. intros w. cbn. tauto. Qed.

(** ** C63: accepted programs have no free variable *)
Theorem C63_accepted_closed : forall e r g, typecheck e = Ok r -> gram_of e = Some g -> closed_below 0 g.
Proof.
  intros e r g E Hg. destruct (typecheck_typed e r E) as (g' & s & Hg' & _ & Ht & _).
  rewrite Hg in Hg'. injection Hg' as <-. exact (proj1 typed_closed _ _ _ Ht).
Qed.
Print Assumptions C63_accepted_closed.
