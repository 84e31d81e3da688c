(** * PropDefect: type errors are true (C80), and acceptance in terms of languages (C81). *)
From Coq Require Import String.
From Verif Require Import DefectFacts Examples.
From Coq Require Import List.
Open Scope list_scope.

Lemma typecheck_explains e x g : typecheck e = Err x -> gram_of e = Some g -> (about_sets x -> productive [] g) -> explains (e_name e) [] e x.
Proof.
  intros E Hg Hp. eapply (infer_explains e _ _ _ _ _ []); [exact E | exact Hg | apply reachable_wf; constructor | reflexivity | |].
  - intros [| i] t Hi; discriminate.
  - intros A. split; [auto |]. intros [| i] t Hi; discriminate.
Qed.

(** ** C80: what a type error says is true *)
(** For any expression, the error names a part of it of the right kind, and
    its position. *)
Theorem C80_located : forall e x, typecheck e = Err x -> located e x.
Proof. intros e x. apply infer_located. Qed.
Print Assumptions C80_located.
(** For an expression that is a grammar, what it says about that part is true:
    of the languages of the parts, not of their types. *)
Theorem C80_truthful : forall e x g, typecheck e = Err x -> gram_of e = Some g ->
  (about_sets x -> productive [] g) -> explains (e_name e) [] e x.
Proof. exact typecheck_explains. Qed.
Print Assumptions C80_truthful.
(** A complaint about a guarded variable is left recursion; one about a free
    variable is a variable that nothing binds. *)
Theorem C80_guarded : forall e i s n g, typecheck e = Err (VariableError GuardedVariable i s n) -> gram_of e = Some g -> left_recursive [] g.
Proof.
  intros e i s n g E Hg. destruct (explains_left _ _ _ _ (typecheck_explains e _ g E Hg (fun A => match A with end)) _ _ _ g eq_refl Hg) as [K | (j & L & K & _)]; [exact K |].
  destruct j; discriminate.
Qed.
Print Assumptions C80_guarded.
Theorem C80_free : forall e i s n g, typecheck e = Err (VariableError FreeVariable i s n) -> gram_of e = Some g -> ~ closed_below 0 g.
Proof. intros e i s n g E Hg. exact (explains_free_open _ _ _ _ (typecheck_explains e _ g E Hg (fun A => match A with end)) _ _ _ g eq_refl Hg). Qed.
Print Assumptions C80_free.

(** [!(/r/ "a" . r) | "a"]. *)
Notation ex_ghost := (alt2 ex_empty (L "a")).
Notation g_ghost := (GAlt [GFix (GCat [GLit (lit "a"); GVar 0]); GLit (lit "a")]).
Lemma ghost_empty env w : ~ lang_of env (GFix (GCat [GLit (lit "a"); GVar 0])) w.
Proof.
  intros Hw. change (lang_empty w). revert w Hw. apply (lang_fix_least env (GCat [GLit (lit "a"); GVar 0])).
  intros w (u & v & _ & _ & v1 & v2 & _ & Hv & _). exact Hv.
Qed.
Lemma ghost_fine : ~ defect [] g_ghost.
Proof.
  assert (A : forall l g m h n x y, l ++ g :: m ++ h :: n = [x; y] -> g = x /\ h = y :> gram).
  { intros [| l0 [| l1 [| l2 l]]] g [| m0 [| m1 m]] h n x y E; try discriminate E. injection E. auto. }
  intros H. remember g_ghost as gg eqn:E. destruct H as [| | | | r l g m h n H1 H2 | r l g m h n c v w H1 H2 | | | r gs h Hin Hd |]; try discriminate E; injection E as E.
  - apply A in E as [-> ->]. exact (ghost_empty _ _ H1).
  - apply A in E as [-> ->]. exact (ghost_empty _ _ H1).
  - subst gs. destruct Hin as [<- | [<- | []]]; [| now inversion Hd]. inversion Hd as [| | | | | | | | | r' g Hb]; subst.
    remember (GCat [GLit (lit "a"); GVar 0]) as gg eqn:E. remember (enter gg r) as r' eqn:Er. destruct Hb as [| | r0 g gs Hn | r0 gs h rest u c v w Hne H1 H2 H3 | | | r0 g gs Hg | r0 g gs h Hin Hg | |]; try discriminate E; injection E as E.
    + subst g. discriminate Hn.
    + destruct gs as [| g0 [| g1 [| g2 gs]]]; [now elim Hne | | discriminate E | discriminate E]. injection E as -> -> ->. destruct H1 as (x & y & -> & Hx & ->), H2 as (x' & y' & H2 & Hx' & ->). cbn in Hx, Hx'. subst. rewrite !app_nil_r in H2. discriminate H2.
    + subst g. inversion Hg.
    + subst gs. destruct Hin as [<- | []]. subst r0. inversion Hg as [r1 i Hl | r1 i L Hl | | | | | | | |]; subst; [cbn in Hl; inversion Hl | discriminate Hl].
Qed.
(** Without words everywhere a complaint about sets can be false: the first
    part of [ex_ghost] has no word at all, so that nothing overlaps. *)
Theorem C80_unproductive_refuted : exists e x g, typecheck e = Err x /\ gram_of e = Some g /\ ~ defect [] g.
Proof. exists ex_ghost. eexists. exists g_ghost. split; [vm_compute; reflexivity |]. split; [reflexivity | exact ghost_fine]. Qed.

Example C80_ex_overlap : exists x g, typecheck ex_overlap = Err x /\ gram_of ex_overlap = Some g /\ about_sets x /\ productive [] g /\ explains (e_name ex_overlap) [] ex_overlap x.
Proof.
  eexists. exists (GAlt [GLit (lit "a"); GCat [GLit (lit "a"); GLit (lit "b")]]). split; [vm_compute; reflexivity |]. split; [reflexivity |]. split; [exact Logic.I |].
  assert (P : productive [] (GAlt [GLit (lit "a"); GCat [GLit (lit "a"); GLit (lit "b")]])).
  { split; [exists (lit "a"); now left |]. split; [split; [exists (lit "a"); reflexivity | exact Logic.I] |]. split; [| exact Logic.I].
    split; [exists (lit "ab"), (lit "a"), (lit "b"); repeat split; exists (lit "b"), []; repeat split |].
    split; [split; [exists (lit "a"); reflexivity | exact Logic.I] |]. split; [split; [exists (lit "b"); reflexivity | exact Logic.I] | exact Logic.I]. }
  split; [exact P |]. apply C80_truthful with (g := GAlt [GLit (lit "a"); GCat [GLit (lit "a"); GLit (lit "b")]]); [vm_compute; reflexivity | reflexivity | auto].
Qed.
Example C80_ex_guarded : exists i s n, typecheck ex_leftrec = Err (VariableError GuardedVariable i s n).
Proof. eexists _, _, _. vm_compute. reflexivity. Qed.
Example C80_ex_free : exists i s n, typecheck (cat2 (L "a") (V 0)) = Err (VariableError FreeVariable i s n).
Proof. eexists _, _, _. vm_compute. reflexivity. Qed.
Example C80_ex_call : exists s c, typecheck (cat2 (L "a") (ECall a0 (V 0) [L "b"])) = Err (UnexpectedCall s c).
Proof. eexists _, _. vm_compute. reflexivity. Qed.

(** ** C81: what is accepted, in terms of languages *)
Theorem C81_accepted_has_no_defect : forall e r g, typecheck e = Ok r -> gram_of e = Some g -> ~ defect [] g.
Proof.
  intros e r g E Hg D. destruct (typecheck_typed e r E) as (g' & s & Hg' & _ & Ht & _). rewrite Hg in Hg'. injection Hg' as <-.
  exact (typed_no_defect _ _ D _ _ Ht eq_refl (Forall2_nil _)).
Qed.
Print Assumptions C81_accepted_has_no_defect.
Theorem C81_exactly : forall e g, gram_of e = Some g -> productive [] g -> (exists r, typecheck e = Ok r) <-> ~ defect [] g.
Proof.
  intros e g Hg Hp. split; [intros [r E]; eapply C81_accepted_has_no_defect; eauto |]. intros D.
  destruct (typecheck_total e) as [H1 H2]. destruct (typecheck e) as [r | x | |] eqn:E; [eauto | | now elim H2 | now elim H1]. elim D.
  exact (explains_defect _ _ _ _ (typecheck_explains e x g E Hg (fun _ => Hp)) g Hg).
Qed.
Print Assumptions C81_exactly.
(** Rejected grammars have a defect even without words everywhere, unless the
    error is about sets. *)
Theorem C81_rejected : forall e x g, typecheck e = Err x -> gram_of e = Some g -> (about_sets x -> productive [] g) -> defect [] g.
Proof. intros e x g E Hg Hp. exact (explains_defect _ _ _ _ (typecheck_explains e x g E Hg Hp) g Hg). Qed.
Print Assumptions C81_rejected.
(** The only way for the type checker to turn down a grammar without a defect
    is to count on words that do not exist. *)
Corollary C81_only_ghosts : forall e x g, typecheck e = Err x -> gram_of e = Some g -> ~ defect [] g -> about_sets x /\ ~ productive [] g.
Proof.
  intros e x g E Hg D. assert (A : about_sets x).
  { destruct x; cbn; auto; elim D; eapply C81_rejected; eauto; intros []. }
  split; [exact A |]. intros P. apply D. eapply C81_rejected; eauto.
Qed.
Print Assumptions C81_only_ghosts.
Example C81_ex_defect : defect [] (GCat [GAlt [GLit (lit "a"); GLit (lit "ab")]; GLit (lit "bc")]).
Proof.
  apply (defect_end [] [GAlt [GLit (lit "a"); GLit (lit "ab")]] (GLit (lit "bc")) [] (lit "a") (chr "b") [] (lit "c")); [discriminate | | | reflexivity].
  - exists (lit "a"), []. repeat split. now left.
  - exists (lit "ab"), []. repeat split. right. now left.
Qed.
