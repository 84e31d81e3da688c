(** * PropDisplay: the text of an expression, and equality (C92, C93).

    Vocabulary: [display] (Display: [Display for NamedExpression]), [alike],
    [tame], [wordlike] (SpecDisplay); [nexpr_eqb] (AutoNibble: [PartialEq for
    NamedExpression]), [binders] (SpecEqual), [erase], [steps], [reduce]. *)
From Coq Require Import String.
From Verif Require Import DisplayFacts EqualFacts SpecLang SameFacts PropGen PropReduce PropSame ReduceMore ReduceFacts StepFacts Examples.
From Coq Require Import List NArith Lia.
Open Scope list_scope.

(** ** C92: the text of an expression *)
(** The text depends on nothing but the structure, the texts of literals and
    names, and the indices of the variables without a name. *)
Theorem C92_determined : forall x y, alike x y -> display x = display y.
Proof. intros x y. apply alike_display. Qed.
(** And it tells all of that, if literals and names are words, the literals
    are not among the names of variables, sequences and alternations have two
    parts or more and calls an argument. *)
Theorem C92_readable : forall L N : rstr -> Prop, (forall w, L w -> ~ N w) -> forall x y, tame L N x -> tame L N y ->
  (display x = display y <-> alike x y).
Proof. intros L N H x y Tx Ty. split; [now apply (display_alike L N H) | apply alike_display]. Qed.
(** None of the conditions can be dropped: each pair is written alike and is
    not the same expression. *)
Definition lv (s : string) (i : nat) : nexpr := EVar (Ann (Some (nvar s)) 0%N) i.
Theorem C92_conditions :
  (display (EEps a0) = display (L "_") /\ ~ alike (EEps a0) (L "_"))
  /\ (display (L "x") = display (lv "x" 0) /\ ~ alike (L "x") (lv "x" 0))
  /\ (display (cat2 (L "a") (L "b")) = display (L "(a . b)") /\ ~ alike (cat2 (L "a") (L "b")) (L "(a . b)"))
  /\ (display (ECat a0 (L "a") []) = display (EAlt a0 (L "a") []) /\ ~ alike (ECat a0 (L "a") []) (EAlt a0 (L "a") []))
  /\ (display (ECall a0 (L "a") []) = display (EAlt a0 (L "a") []) /\ ~ alike (ECall a0 (L "a") []) (EAlt a0 (L "a") []))
  /\ (display (ECall a0 (L "a") [L "."; L "b"]) = display (cat2 (L "a") (L "b")) /\ ~ alike (ECall a0 (L "a") [L "."; L "b"]) (cat2 (L "a") (L "b")))
  /\ (display (ECall a0 (L "a") [L ":"; lv "n" 0]) = display (ELit (Ann (Some (nlabel "n")) 0%N) (lit "a")) /\ ~ alike (ECall a0 (L "a") [L ":"; lv "n" 0]) (ELit (Ann (Some (nlabel "n")) 0%N) (lit "a")))
  /\ (display (EFix a0 (L "a")) = display (L "!a") /\ ~ alike (EFix a0 (L "a")) (L "!a")).
Proof. repeat split; try (intros A; inversion A; fail). Qed.
(** A variable with a name is written without its index. *)
Theorem C92_index_lost : display (lv "x" 0) = display (lv "x" 1) /\ erase (lv "x" 0) <> erase (lv "x" 1).
Proof. split; [reflexivity | discriminate]. Qed.
Print Assumptions C92_determined.
Print Assumptions C92_readable.
Definition ex_text : nexpr :=
  ELet a0 (nlet "f") (ELam a0 [nvar "x"; nvar "y"] (alt2 (cat2 (lv "x" 1) (lv "y" 0)) (EEps a0)))
    (EFix a0 (ELam a0 [nvar "z"] (ECall (Ann (Some (nlabel "all")) 0%N) (lv "f" 1) [L "1"; V 0]))).
Example C92_ex : tame (fun w => w = lit "1") (fun w => w <> lit "1") ex_text
  /\ display ex_text = lit "let f = /x, y/ ((x . y) | _); !/z/ ((f 1 '0) : all)".
Proof.
  split; [| reflexivity].
  assert (W : forall s, (negb (match lit s with [] => true | _ => false end) && forallb wordb (lit s) && negb (existsb (rstr_eqb (lit s)) [lit "_"; lit "let"; lit "."; lit "|"; lit ":"]))%bool = true -> wordlike (lit s)).
  { intros s H. apply andb_prop in H as [H H3]. apply andb_prop in H as [H1 H2]. split; [intros E; rewrite E in H1; discriminate |]. split.
    - apply Forall_forall. intros c Hc. apply wordb_true. rewrite forallb_forall in H2. auto.
    - intros K. apply Bool.negb_true_iff in H3. assert (T : existsb (rstr_eqb (lit s)) [lit "_"; lit "let"; lit "."; lit "|"; lit ":"] = true) by (apply existsb_exists; eexists; split; [exact K | apply rstr_eqb_refl]). congruence. }
  repeat (first [apply tm_let | apply tm_lam | apply tm_fix | apply tm_call | apply tm_alt | apply tm_cat | apply tm_eps | apply tm_lit | apply tm_var | apply Forall_cons | apply Forall_nil]);
    try exact Logic.I; try discriminate; try (apply W; reflexivity); try reflexivity; intros n E; try discriminate E; injection E as <-; intros K; vm_compute in K; discriminate K.
Qed.

(** ** C93: equality of expressions *)
(** Two expressions are equal exactly if they stand for the same term and bind
    equal names one by one; their own names and positions are not compared. *)
Theorem C93_exact : forall x y, nexpr_eqb x y = true <-> erase x = erase y /\ Forall2 (fun n m => name_eqb n m = true) (binders x) (binders y).
Proof. apply eqb_exact. Qed.
Theorem C93_reflexive : forall x, nexpr_eqb x x = true.
Proof. intros x. apply eqb_exact. split; [reflexivity |]. induction (binders x); constructor; auto using name_eqb_refl. Qed.
Theorem C93_symmetric : forall x y, nexpr_eqb x y = nexpr_eqb y x.
Proof.
  assert (K : forall x y, nexpr_eqb x y = true -> nexpr_eqb y x = true).
  { intros x y H. apply eqb_exact in H as [E F]. apply eqb_exact. split; [auto |]. clear E. induction F; constructor; auto. now rewrite name_eqb_sym. }
  intros x y. apply Bool.eq_iff_eq_true. split; apply K.
Qed.
(** Transitive, unless a name that is bound is a raw identifier. *)
Theorem C93_transitive : forall x y z, Forall unraw (binders x) -> Forall unraw (binders y) -> Forall unraw (binders z) ->
  nexpr_eqb x y = true -> nexpr_eqb y z = true -> nexpr_eqb x z = true.
Proof.
  intros x y z Ux Uy Uz H1 H2. apply eqb_exact in H1 as [E1 F1], H2 as [E2 F2]. apply eqb_exact. split; [congruence |]. clear E1 E2.
  revert F2 Ux Uy Uz. generalize (binders z). induction F1 as [| n m l l' Hn F1 IH]; intros l'' F2 Ux Uy Uz; inversion F2; subst; constructor.
  - apply Forall_inv in Ux, Uy, Uz. eapply name_eqb_trans; [exact Ux | exact Uy | exact Uz | exact Hn | assumption].
  - apply Forall_inv_tail in Ux, Uy, Uz. apply IH; auto.
Qed.
Theorem C93_transitive_refuted : exists x y z, nexpr_eqb x y = true /\ nexpr_eqb y z = true /\ nexpr_eqb x z = false.
Proof.
  exists (ELam a0 [new_variable (Spanned (Ident true (lit "x") 0%N))] (V 0)), (ELam a0 [new_variable (Spanless (lit "x"))] (V 0)), (ELam a0 [new_variable (Spanned (Ident false (lit "x") 0%N))] (V 0)).
  repeat split.
Qed.
(** Equal expressions reduce to equal terms, or neither to a value, and are
    type checked with the same result. *)
Theorem C93_same_reduction : forall x y, nexpr_eqb x y = true ->
  (forall n v, reduce n x = Ok v -> exists m w, reduce m y = Ok w /\ erase v = erase w)
  /\ forall g, gram_of x = Some g -> gram_of y = Some g /\
    match typecheck x, typecheck y with
    | Ok r, Ok r' => get_type r = get_type r'
    | Err e, Err e' => same_type_error e e'
    | _, _ => False
    end.
Proof.
  intros x y H. apply eqb_exact in H as [E _]. split.
  - intros n v R. destruct (proj2 (C40_exact y (erase v))) as (m & w & Hw & Ew); [rewrite <- E; apply C40_exact; eauto |]. eauto.
  - intros g G. assert (G' : gram_of y = Some g) by (rewrite gram_of_lgram in *; congruence). split; [exact G' |]. now apply C77_type_check with (g := g).
Qed.
Print Assumptions C93_exact.
Print Assumptions C93_transitive.
Print Assumptions C93_same_reduction.
Example C93_ex : nexpr_eqb ex_text (set_ann (Ann (Some (nlabel "other")) 5%N) ex_text) = true
  /\ nexpr_eqb (ELam a0 [nvar "x"] (V 0)) (ELam a0 [nvar "y"] (V 0)) = false /\ binders ex_text = [nlet "f"; nvar "x"; nvar "y"; nvar "z"]
  /\ nexpr_eqb (cat2 (L "a") (lv "x" 0)) (cat2 (L "a") (lv "y" 0)) = true.
Proof. repeat split. Qed.
