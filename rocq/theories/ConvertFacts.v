(** * ConvertFacts: conversion is lexical scoping. *)
From Coq Require Import String.
From Verif Require Export Convert SpecScope SyntaxFacts ReduceFacts.
From Coq Require Import List Lia.
Open Scope list_scope.

Lemma sameb_iff x y : sameb x y = true <-> same x y.
Proof. unfold sameb, same. rewrite andb_true_iff, Bool.eqb_true_iff, rstr_eqb_eq. reflexivity. Qed.
Lemma same_dec x y : {same x y} + {~ same x y}.
Proof. destruct (sameb x y) eqn:E; [left; now apply sameb_iff | right; intros H; apply sameb_iff in H; congruence]. Qed.
Lemma same_sym x y : same x y -> same y x.
Proof. intros [H1 H2]. now split. Qed.
Lemma ident_eqb_same x y : ident_eqb x y = true <-> same y x.
Proof. change (sameb x y = true <-> same y x). rewrite sameb_iff. split; apply same_sym. Qed.

Lemma position_denotes S x : forall i, position (Spanned x) (map Spanned S) = Some i <-> denotes S x i.
Proof.
  induction S as [| y S IH]; intros i.
  - split; [discriminate |]. intros [(z & H & _) _]. now destruct i.
  - cbn [map position content_eqb]. destruct (ident_eqb y x) eqn:E.
    + apply ident_eqb_same in E. split.
      * intros [= <-]. split; [exists y; split; [reflexivity | exact E] |]. intros j z Hj. lia.
      * intros [_ H]. destruct i; [reflexivity |]. elim (H 0 y); [lia | reflexivity | exact E].
    + assert (Hn : ~ same x y) by (intros H; apply ident_eqb_same in H; congruence). split.
      * destruct (position (Spanned x) (map Spanned S)) as [k |] eqn:Ep; [| discriminate]. intros [= <-].
        destruct (proj1 (IH k) eq_refl) as [H1 H2]. split; [exact H1 |]. intros [| j] z Hj Hz.
        -- injection Hz as <-. exact Hn.
        -- apply (H2 j z); [lia | exact Hz].
      * intros [(z & Hz & Hs) H2]. destruct i as [| i]; [injection Hz as <-; contradiction |].
        rewrite (proj2 (IH i)); [reflexivity |]. split; [exists z; now split |]. intros j w Hj Hw. apply (H2 (Datatypes.S j) w); [lia | exact Hw].
Qed.
Lemma denotes_fun S x i j : denotes S x i -> denotes S x j -> i = j.
Proof. intros H1 H2. apply position_denotes in H1. apply position_denotes in H2. congruence. Qed.
Lemma position_none S x : position (Spanned x) (map Spanned S) = None <-> existsb (sameb x) S = false.
Proof.
  induction S as [| y S IH]; cbn [map position content_eqb existsb]; [tauto |].
  assert (E : ident_eqb y x = sameb x y).
  { apply Bool.eq_iff_eq_true. rewrite ident_eqb_same, sameb_iff. reflexivity. }
  rewrite E. destruct (sameb x y); [split; discriminate |]. cbn [orb]. rewrite <- IH.
  destruct (position (Spanned x) (map Spanned S)); cbn; split; congruence.
Qed.

(** ** The outcome of a conversion *)
Definition outcome {A} (u : list ident) (P : A -> Prop) (r : res A convert_error) : Prop :=
  match u with
  | [] => exists x, r = Ok x /\ P x
  | x :: _ => r = Err (UndeclaredName (new_variable (Spanned x)))
  end.
Definition runs {A} (ctx ctx' : context) (u : list ident) (P : A -> Prop) (m : conv A) : Prop :=
  exists r, m ctx = (r, ctx') /\ outcome u P r.
Lemma runs_ret {A} ctx (P : A -> Prop) x : P x -> runs ctx ctx [] P (ret x).
Proof. intros H. exists (Ok x). split; [reflexivity |]. now exists x. Qed.
Lemma runs_bind {A B} ctx ctx' u v (P : A -> Prop) (Q : B -> Prop) m k :
  runs ctx ctx' u P m -> (forall x, P x -> runs ctx' ctx' v Q (k x)) -> runs ctx ctx' (u ++ v) Q (bind m k).
Proof.
  intros (r & E & H) Hk. unfold runs, bind. rewrite E. destruct u as [| y u].
  - destruct H as (x & -> & Px). apply Hk in Px as (r' & E' & H'). exists r'. now split.
  - cbn in H. subst r. eexists. split; [reflexivity |]. reflexivity.
Qed.
Lemma runs_bind_ret {A B} ctx ctx' u (P : A -> Prop) (Q : B -> Prop) m (f : A -> B) :
  runs ctx ctx' u P m -> (forall x, P x -> Q (f x)) -> runs ctx ctx' u Q (bind m (fun x => ret (f x))).
Proof.
  intros H Hf. rewrite <- (app_nil_r u). eapply runs_bind; [exact H |]. intros x Hx. apply runs_ret. now apply Hf.
Qed.
Lemma runs_impl {A} ctx ctx' u (P Q : A -> Prop) m : runs ctx ctx' u P m -> (forall x, P x -> Q x) -> runs ctx ctx' u Q m.
Proof.
  intros (r & E & H) Hi. exists r. split; [exact E |]. destruct u; [| exact H]. destruct H as (x & -> & Hx). exists x. split; auto.
Qed.
Lemma runs_variables {A} S args u (P : A -> Prop) m :
  runs (map Spanned (rev args ++ S)) (map Spanned (rev args ++ S)) u P m ->
  runs (map Spanned S) (map Spanned S) u P (with_variables (map (fun i => new_variable (Spanned i)) args) m).
Proof.
  intros (r & E & H). exists r. split; [| exact H]. unfold with_variables. rewrite map_map.
  change (map (fun x => n_content (new_variable (Spanned x))) args) with (map Spanned args).
  rewrite map_app, map_rev in E. rewrite E. rewrite app_length. rewrite !rev_length, !map_length.
  destruct (Nat.ltb_spec (length args + length S) (length S)); [lia |]. f_equal.
  replace (length args + length S - length S) with (length (rev (map Spanned args))) by (rewrite rev_length, map_length; lia).
  rewrite skipn_app, skipn_all, Nat.sub_diag. reflexivity.
Qed.

Section Conv.
  Variable join : span -> span -> option span.
  Definition converts (n : node) : Prop := forall S,
    runs (map Spanned S) (map Spanned S) (undeclared S n) (fun e => means S n (erase e)) (convert join n).
  Lemma convert_args_runs S ns : Forall converts ns ->
    runs (map Spanned S) (map Spanned S) (flat_map (undeclared S) ns) (fun es => Forall2 (means S) ns (map erase es))
      (convert_args (convert join) ns).
  Proof.
    induction 1 as [| n ns Hn _ IH]; cbn [convert_args flat_map].
    - apply runs_ret. constructor.
    - eapply runs_bind; [apply Hn |]. intros e He. eapply runs_bind_ret; [apply IH |]. intros es Hes. now constructor.
  Qed.
  Lemma convert_rest_runs S ps : Forall (fun x => converts (fst x)) ps -> forall punct,
    runs (map Spanned S) (map Spanned S) (flat_map (fun x => undeclared S (fst x)) ps)
      (fun es => Forall2 (means S) (map fst ps) (map (fun x => erase (snd x)) es))
      (convert_rest (convert join) punct ps).
  Proof.
    induction 1 as [| [n p] ns Hn _ IH]; intros punct; cbn [convert_rest flat_map].
    - apply runs_ret. constructor.
    - eapply runs_bind; [apply Hn |]. intros e He. eapply runs_bind_ret; [apply IH |]. intros es Hes. now constructor.
  Qed.

  Lemma convert_runs n : forall L, wf L n -> converts n.
  Proof.
    induction n using node_ind'; intros L Hw S; cbn [convert undeclared].
    - apply runs_ret. constructor.
    - unfold lookup. cbn [n_content new_variable]. destruct (existsb (sameb i) S) eqn:E.
      + destruct (position (Spanned i) (map Spanned S)) as [k |] eqn:Ep.
        * eexists. rewrite Ep. split; [reflexivity |]. eexists. split; [reflexivity |]. cbn. constructor. now apply position_denotes.
        * apply position_none in Ep. congruence.
      + apply position_none in E. eexists. rewrite E. split; reflexivity.
    - apply runs_ret. constructor.
    - assert (Wn : wf LvTerm n) by (inversion Hw; subst; [assumption |]; match goal with h : wf LvAlt _ |- _ => inversion h end).
      eapply runs_bind_ret; [eapply IHn; exact Wn |]. intros e He. now constructor.
    - assert (Wn : wf LvExpr n) by (inversion Hw; subst; [assumption |]; match goal with h : wf LvAlt _ |- _ => inversion h end).
      eapply runs_impl; [eapply IHn; exact Wn |]. intros e He. now constructor.
    - assert (Wn : exists t ts', ts = t :: ts' /\ wf LvTerm t /\ Forall (wf LvTerm) ts').
      { inversion Hw; subst; [eauto 6 |]. match goal with h : wf LvAlt _ |- _ => inversion h end. }
      destruct Wn as (t & ts' & -> & Wt & Wts). inversion H as [| ? ? Ht Hts]; subst. cbn [flat_map].
      eapply runs_bind; [eapply Ht; exact Wt |]. intros e He.
      assert (Hc : Forall converts ts').
      { clear - Hts Wts. induction Hts as [| x l Hx _ IH]; [constructor |]. inversion Wts; subst. constructor; [eapply Hx; eassumption | now apply IH]. }
      rewrite <- (app_nil_r (flat_map _ _)). eapply runs_bind; [apply convert_args_runs; exact Hc |].
      intros es Hes. destruct es as [| e1 es].
      + inversion Hes; subst. apply runs_ret. now constructor.
      + apply runs_ret. cbn. constructor; [exact He | exact Hes | discriminate].
    - assert (Wn : exists t p ps', ps = (t, p) :: ps' /\ wf LvCall t /\ Forall (fun x => wf LvCall (fst x)) ps').
      { assert (Hb : punctuated (wf LvCall) ps).
        { inversion Hw; subst; [assumption |]. match goal with h : wf LvAlt _ |- _ => now inversion h end. }
        destruct Hb as [x Hx | x sp l Hx Hl]; [exists x, None, []; auto |].
        exists x, (Some sp), l. repeat split; [exact Hx |]. clear - Hl. induction Hl; constructor; auto. }
      destruct Wn as (t & p & ps' & -> & Wt & Wts). inversion H as [| ? ? Ht Hts]; subst. cbn [flat_map fst].
      eapply runs_bind; [eapply Ht; exact Wt |]. intros e He.
      assert (Hc : Forall (fun x => converts (fst x)) ps').
      { clear - Hts Wts. induction Hts as [| x l Hx _ IH]; [constructor |]. inversion Wts; subst. constructor; [eapply Hx; eassumption | now apply IH]. }
      rewrite <- (app_nil_r (flat_map _ _)). eapply runs_bind; [apply convert_rest_runs; exact Hc |].
      intros es Hes. destruct es as [| e1 es].
      + destruct ps'; [| inversion Hes]. apply runs_ret. now constructor.
      + apply runs_ret. cbn. constructor; [cbn; now constructor | cbn; lia].
    - assert (Wn : wf LvCat n) by (inversion Hw; subst; [assumption |]; match goal with h : wf LvAlt _ |- _ => inversion h end).
      eapply runs_bind_ret; [eapply IHn; exact Wn |]. intros e He. rewrite erase_set_ann. now constructor.
    - assert (Wn : exists t p ps', ps = (t, p) :: ps' /\ wf LvLabelled t /\ Forall (fun x => wf LvLabelled (fst x)) ps').
      { assert (Hb : punctuated (wf LvLabelled) ps).
        { inversion Hw; subst; [assumption |]. match goal with h : wf LvAlt _ |- _ => now inversion h end. }
        destruct Hb as [x Hx | x sp l Hx Hl]; [exists x, None, []; auto |].
        exists x, (Some sp), l. repeat split; [exact Hx |]. clear - Hl. induction Hl; constructor; auto. }
      destruct Wn as (t & p & ps' & -> & Wt & Wts). inversion H as [| ? ? Ht Hts]; subst. cbn [flat_map fst].
      eapply runs_bind; [eapply Ht; exact Wt |]. intros e He.
      assert (Hc : Forall (fun x => converts (fst x)) ps').
      { clear - Hts Wts. induction Hts as [| x l Hx _ IH]; [constructor |]. inversion Wts; subst. constructor; [eapply Hx; eassumption | now apply IH]. }
      rewrite <- (app_nil_r (flat_map _ _)). eapply runs_bind; [apply convert_rest_runs; exact Hc |].
      intros es Hes. destruct es as [| e1 es].
      + destruct ps'; [| inversion Hes]. apply runs_ret. now constructor.
      + apply runs_ret. cbn. constructor; [cbn; now constructor | cbn; lia].
    - assert (Wn : wf LvAlt n) by (inversion Hw; subst; [match goal with h : wf LvAlt _ |- _ => now inversion h end | assumption]).
      eapply runs_bind_ret; [apply runs_variables; eapply IHn; exact Wn |]. intros e He. cbn. rewrite map_length. now constructor.
  Qed.

  Lemma convert_stmt_runs s : wf_stmt s -> forall S, exists r,
    outcome (undeclared_stmt S s) (fun e => means_stmt S s (erase e)) r
    /\ exists S', convert_stmt join s (map Spanned S) = (r, map Spanned S')
    /\ (undeclared_stmt S s = [] -> S' = let_names s ++ S).
  Proof.
    induction 1 as [k n semi Hn | k nm args eq n semi next Ha Hn Hnext IH]; intros S; cbn [convert_stmt undeclared_stmt].
    - destruct (convert_runs n _ Hn S) as (r & E & H). unfold bind. rewrite E. destruct (undeclared S n) as [| x u].
      + destruct H as (e & -> & He). eexists. split; [| exists S; split; [reflexivity | reflexivity]].
        eexists. split; [reflexivity |]. rewrite erase_set_ann. now constructor.
      + cbn in H. subst r. eexists. split; [| exists S; split; [reflexivity | discriminate]]. reflexivity.
    - assert (Hb : runs (map Spanned S) (map Spanned S) (undeclared (rev args ++ S) n)
          (fun b => exists e, means (rev args ++ S) n e /\ erase b = match args with [] => e | _ => LLam (length args) e end)
          (match args with
           | [] => convert join n
           | _ =>
             bind (with_variables (map (fun j => new_variable (Spanned j)) args) (convert join n))
               (fun inner => ret (ELam (Ann None (stmt_span join (SLet k nm args eq n semi next)))
                  (map (fun j => new_variable (Spanned j)) args) inner))
           end)).
      { destruct args as [| a args].
        - eapply runs_impl; [eapply convert_runs; exact Hn |]. intros e He. cbn. exists (erase e). auto.
        - eapply runs_bind_ret; [apply runs_variables; eapply convert_runs; exact Hn |]. intros e He. exists (erase e). split; [exact He |].
          cbn [erase]. now rewrite map_length. }
      unfold bind at 1. destruct Hb as (r & E & H). rewrite E. destruct (undeclared (rev args ++ S) n) as [| x u].
      + destruct H as (b & -> & e & He & Hb). cbn [app]. unfold bind at 1. unfold push_variable. cbn [n_content new_let].
        destruct (IH (nm :: S)) as (r' & Hr' & S' & E' & HS'). cbn [map] in E'. unfold bind at 1. rewrite E'.
        cbn [let_names]. rewrite <- app_assoc. cbn [app].
        destruct (undeclared_stmt (nm :: S) next) as [| x u].
        * destruct Hr' as (e' & -> & He'). eexists. split; [| exists S'; split; [reflexivity | exact HS']].
          eexists. split; [reflexivity |]. cbn [erase]. unfold set_name. rewrite erase_set_ann, Hb.
          destruct args; now constructor.
        * cbn in Hr'. subst r'. eexists. split; [| exists S'; split; [reflexivity | discriminate]]. reflexivity.
      + cbn in H. subst r. eexists. split; [| exists S; split; [reflexivity | discriminate]]. reflexivity.
  Qed.
End Conv.

(** ** The meaning is unique, and exists exactly when nothing is undeclared *)
Lemma F2_length {A B} (R : A -> B -> Prop) l l' : Forall2 R l l' -> length l = length l'.
Proof. induction 1; cbn; congruence. Qed.
Lemma Forall2_fun {A B} (R : A -> B -> Prop) l : Forall (fun x => forall y z, R x y -> R x z -> y = z) l ->
  forall l1 l2, Forall2 R l l1 -> Forall2 R l l2 -> l1 = l2.
Proof.
  induction 1 as [| x l Hx _ IH]; intros l1 l2 H1 H2; inversion H1; subst; inversion H2; subst; [reflexivity |].
  f_equal; [now apply Hx | now apply IH].
Qed.
Lemma Forall_map_fst (P : node -> Prop) (ps : list (node * option span)) : Forall (fun x => P (fst x)) ps -> Forall P (map fst ps).
Proof. induction 1; constructor; auto. Qed.
Lemma means_fun n : forall S e e', means S n e -> means S n e' -> e = e'.
Proof.
  induction n using node_ind'; intros S e1 e2 H1' H2'; inversion H1'; subst; inversion H2'; subst; auto; try (cbn in *; lia).
  all: try (f_equal; now apply IHn with (S := S)).
  - f_equal. eapply denotes_fun; eassumption.
  - inversion H as [| ? ? Hx _]; subst. now apply Hx with (S := S).
  - match goal with h : Forall2 _ [] _ |- _ => inversion h; subst; congruence end.
  - match goal with h : Forall2 _ [] _ |- _ => inversion h; subst; congruence end.
  - inversion H as [| ? ? Hx Hxs]; subst. f_equal; [now apply Hx with (S := S) |].
    eapply Forall2_fun; [| eassumption | eassumption]. eapply Forall_impl; [| exact Hxs]. cbn. intros a Ha y z. apply Ha.
  - inversion H as [| ? ? Hx Hxs]; subst. now apply Hx with (S := S).
  - exfalso. match goal with h : Forall2 _ _ _, h' : 2 <= _ |- _ => apply F2_length in h; cbn in h; lia end.
  - exfalso. match goal with h : Forall2 _ _ _, h' : 2 <= _ |- _ => apply F2_length in h; cbn in h; lia end.
  - f_equal. eapply Forall2_fun; [| eassumption | eassumption]. apply Forall_map_fst. eapply Forall_impl; [| exact H]. cbn. intros a Ha y z. apply Ha.
  - inversion H as [| ? ? Hx Hxs]; subst. now apply Hx with (S := S).
  - exfalso. match goal with h : Forall2 _ _ _, h' : 2 <= _ |- _ => apply F2_length in h; cbn in h; lia end.
  - exfalso. match goal with h : Forall2 _ _ _, h' : 2 <= _ |- _ => apply F2_length in h; cbn in h; lia end.
  - f_equal. eapply Forall2_fun; [| eassumption | eassumption]. apply Forall_map_fst. eapply Forall_impl; [| exact H]. cbn. intros a Ha y z. apply Ha.
  - f_equal. now apply IHn with (S := rev args ++ S).
Qed.
Lemma means_stmt_fun s : forall S e e', means_stmt S s e -> means_stmt S s e' -> e = e'.
Proof.
  induction s as [k n semi | k nm args eq n semi next IH]; intros S e1 e2 H1 H2; inversion H1; subst; inversion H2; subst.
  - eapply means_fun; eassumption.
  - f_equal; [eapply means_fun; eassumption | eapply IH; eassumption].
  - f_equal; [f_equal; eapply means_fun; eassumption | eapply IH; eassumption].
Qed.
Lemma flat_map_nil {A B} (f : A -> list B) l : Forall (fun x => f x = []) l -> flat_map f l = [].
Proof. induction 1 as [| x l Hx _ IH]; [reflexivity |]. cbn. now rewrite Hx, IH. Qed.
Lemma Forall2_left {A B} (R : A -> B -> Prop) (P : A -> Prop) l l' :
  Forall (fun x => forall y, R x y -> P x) l -> Forall2 R l l' -> Forall P l.
Proof. intros H H2. induction H2 as [| x y l l' Hxy _ IH]; inversion H; subst; constructor; eauto. Qed.
Lemma means_declared n : forall S e, means S n e -> undeclared S n = [].
Proof.
  induction n using node_ind'; intros S e He; inversion He; subst; cbn [undeclared]; auto.
  - destruct (existsb (sameb i) S) eqn:E; [reflexivity |]. apply position_none in E.
    match goal with h : denotes _ _ _ |- _ => apply position_denotes in h; congruence end.
  - eapply IHn; eassumption.
  - eapply IHn; eassumption.
  - inversion H as [| ? ? Hx _]; subst. cbn. rewrite app_nil_r. eapply Hx; eassumption.
  - inversion H as [| ? ? Hx Hxs]; subst. cbn. erewrite Hx by eassumption. apply flat_map_nil.
    eapply Forall2_left; [| eassumption]. eapply Forall_impl; [| exact Hxs]. intros a Ha y Hy. eapply Ha; eassumption.
  - inversion H as [| ? ? Hx _]; subst. cbn. rewrite app_nil_r. eapply Hx; eassumption.
  - rewrite <- (flat_map_concat_map _ ps) || idtac.
    apply flat_map_nil. apply Forall_map with (f := fst) (P := fun n => undeclared S n = []).
    eapply Forall2_left; [| eassumption]. apply Forall_map_fst. eapply Forall_impl; [| exact H]. intros a Ha y Hy. eapply Ha; eassumption.
  - eapply IHn; eassumption.
  - inversion H as [| ? ? Hx _]; subst. cbn. rewrite app_nil_r. eapply Hx; eassumption.
  - apply flat_map_nil. apply Forall_map with (f := fst) (P := fun n => undeclared S n = []).
    eapply Forall2_left; [| eassumption]. apply Forall_map_fst. eapply Forall_impl; [| exact H]. intros a Ha y Hy. eapply Ha; eassumption.
  - eapply IHn; eassumption.
Qed.
Lemma means_stmt_declared s : forall S e, means_stmt S s e -> undeclared_stmt S s = [].
Proof.
  induction s as [k n semi | k nm args eq n semi next IH]; intros S e1 H1; inversion H1; subst; cbn [undeclared_stmt].
  - eapply means_declared; eassumption.
  - cbn [rev app]. erewrite means_declared by eassumption. eapply IH; eassumption.
  - erewrite means_declared by eassumption. eapply IH; eassumption.
Qed.

(** ** The meaning is closed *)
Lemma scoped_all k l : (fix go l := match l with [] => True | x :: l' => scoped k x /\ go l' end) l <-> Forall (scoped k) l.
Proof.
  induction l as [| x l IH]; [split; constructor |]. rewrite IH. split; [intros [? ?]; now constructor | intros H; inversion H; auto].
Qed.
Lemma Forall2_right {A B} (R : A -> B -> Prop) (Q : B -> Prop) l l' :
  Forall (fun x => forall y, R x y -> Q y) l -> Forall2 R l l' -> Forall Q l'.
Proof. intros H H2. induction H2 as [| x y l l' Hxy _ IH]; inversion H; subst; constructor; eauto. Qed.
Lemma means_scoped n : forall S e, means S n e -> scoped (length S) e.
Proof.
  induction n using node_ind'; intros S e He; inversion He; subst; cbn [scoped]; auto.
  - match goal with h : denotes _ _ _ |- _ => destruct h as [(y & Hy & _) _] end. apply nth_error_Some. congruence.
  - inversion H as [| ? ? Hx _]; subst. now apply Hx.
  - inversion H as [| ? ? Hx Hxs]; subst. split; [now apply Hx |]. apply scoped_all.
    eapply Forall2_right; [| eassumption]. eapply Forall_impl; [| exact Hxs]. intros a Ha y Hy. now apply Ha.
  - inversion H as [| ? ? Hx _]; subst. now apply Hx.
  - apply scoped_all. eapply Forall2_right; [| eassumption]. apply Forall_map_fst. eapply Forall_impl; [| exact H]. intros a Ha y Hy. now apply Ha.
  - inversion H as [| ? ? Hx _]; subst. now apply Hx.
  - apply scoped_all. eapply Forall2_right; [| eassumption]. apply Forall_map_fst. eapply Forall_impl; [| exact H]. intros a Ha y Hy. now apply Ha.
  - match goal with h : means _ n _ |- _ => apply IHn in h; rewrite app_length, rev_length in h; exact h end.
Qed.
Lemma means_stmt_scoped s : forall S e, means_stmt S s e -> scoped (length S) e.
Proof.
  induction s as [k n semi | k nm args eq n semi next IH]; intros S e1 H1; inversion H1; subst; cbn [scoped].
  - eapply means_scoped; eassumption.
  - split; [eapply means_scoped; eassumption |]. match goal with h : means_stmt _ next _ |- _ => apply IH in h; exact h end.
  - split; [| match goal with h : means_stmt _ next _ |- _ => apply IH in h; exact h end].
    match goal with h : means _ n _ |- _ => apply means_scoped in h; rewrite app_length, rev_length in h; exact h end.
Qed.

(** ** Renaming *)
Lemma bound_alike_denotes l x y : bound_alike l x y -> forall i, denotes (map fst l) x i -> denotes (map snd l) y i.
Proof.
  induction 1 as [a b l x y Hx Hy | a b l x y Hx Hy _ IH]; intros i Hi.
  - assert (i = 0) as ->.
    { destruct i; [reflexivity |]. destruct Hi as [_ Hi]. elim (Hi 0 a); [lia | reflexivity | exact Hx]. }
    split; [exists b; split; [reflexivity | exact Hy] |]. intros j z Hj. lia.
  - destruct Hi as [(z & Hz & Hs) Hi]. destruct i as [| i].
    + injection Hz as <-. contradiction.
    + assert (Hd : denotes (map fst l) x i).
      { split; [exists z; now split |]. intros j w Hj Hw. apply (Hi (S j) w); [lia | exact Hw]. }
      apply IH in Hd as [H1 H2]. split; [exact H1 |]. intros [| j] w Hj Hw.
      * injection Hw as <-. exact Hy.
      * apply (H2 j w); [lia | exact Hw].
Qed.
Lemma Forall2_trans_mid {A B C} (R : A -> B -> Prop) (Q : A -> C -> Prop) (T : B -> C -> Prop) l m k :
  Forall (fun x => forall y z, R x y -> Q x z -> T y z) l -> Forall2 R l m -> Forall2 Q l k -> Forall2 T m k.
Proof.
  intros H HR. revert k. induction HR as [| x y l m Hxy _ IH]; intros k HQ; inversion HQ; subst; [constructor |].
  inversion H; subst. constructor; auto.
Qed.
Lemma map_fst_combine {A B} (xs : list A) (ys : list B) : length xs = length ys -> map fst (combine xs ys) = xs.
Proof. revert ys. induction xs as [| x xs IH]; intros [| y ys] H; try discriminate H; [reflexivity |]. cbn. f_equal. now apply IH; injection H. Qed.
Lemma map_snd_combine {A B} (xs : list A) (ys : list B) : length xs = length ys -> map snd (combine xs ys) = ys.
Proof. revert ys. induction xs as [| x xs IH]; intros [| y ys] H; try discriminate H; [reflexivity |]. cbn. f_equal. now apply IH; injection H. Qed.
Lemma alpha_means m : forall l n e, alpha l m n -> means (map fst l) m e -> means (map snd l) n e.
Proof.
  induction m using node_ind'; intros l' n' e Ha He; inversion Ha; subst; inversion He; subst; try (constructor; fail).
  - constructor. eapply bound_alike_denotes; eassumption.
  - constructor. eapply IHm; eassumption.
  - constructor. eapply IHm; eassumption.
  - match goal with h : Forall2 _ [_] _ |- _ => inversion h as [| ? y ? ? Hy Hn]; subst; inversion Hn; subst end.
    inversion H as [| ? ? Hx _]; subst. constructor. eapply Hx; eassumption.
  - match goal with h : Forall2 _ (_ :: _) _ |- _ => inversion h as [| ? y ? ? Hy Hn]; subst end.
    inversion H as [| ? ? Hx Hxs]; subst. constructor; [eapply Hx; eassumption | | assumption].
    eapply Forall2_trans_mid; [| exact Hn | eassumption]. eapply Forall_impl; [| exact Hxs]. cbn. intros a Hal y' z HR HQ. eapply Hal; eassumption.
  - destruct qs as [| [y q] [| [y' q'] qs]]; match goal with h : Forall2 _ (map fst [_]) _ |- _ => cbn in h; inversion h as [| ? ? ? ? Hy Hn]; subst; inversion Hn; subst end.
    inversion H as [| ? ? Hx _]; subst. constructor. eapply Hx; eassumption.
  - constructor; [| assumption]. eapply Forall2_trans_mid; [| eassumption | eassumption]. apply Forall_map_fst. eapply Forall_impl; [| exact H].
    cbn. intros a Hal y' z HR HQ. eapply Hal; eassumption.
  - constructor. eapply IHm; eassumption.
  - destruct qs as [| [y q] [| [y' q'] qs]]; match goal with h : Forall2 _ (map fst [_]) _ |- _ => cbn in h; inversion h as [| ? ? ? ? Hy Hn]; subst; inversion Hn; subst end.
    inversion H as [| ? ? Hx _]; subst. constructor. eapply Hx; eassumption.
  - constructor; [| assumption]. eapply Forall2_trans_mid; [| eassumption | eassumption]. apply Forall_map_fst. eapply Forall_impl; [| exact H].
    cbn. intros a Hal y' z HR HQ. eapply Hal; eassumption.
  - match goal with h : length _ = length _ |- _ => rename h into Hlen end. rewrite Hlen. constructor.
    match goal with h : alpha _ m _, h' : means _ m ?E |- _ => pose proof (IHm _ _ E h) as HI end.
    rewrite !map_app, !map_rev, map_fst_combine, map_snd_combine in HI by exact Hlen. now apply HI.
Qed.
Lemma alpha_means_stmt s : forall l t e, alpha_stmt l s t -> means_stmt (map fst l) s e -> means_stmt (map snd l) t e.
Proof.
  induction s as [k n semi | k nm args eq n semi next IH]; intros l t e Ha He; inversion Ha; subst; inversion He; subst.
  - constructor. eapply alpha_means; eassumption.
  - destruct ys; [| discriminate]. constructor; [eapply alpha_means; eassumption |]. eapply (IH ((nm, y) :: l)); eassumption.
  - destruct ys as [| y0 ys]; [discriminate |].
    match goal with h : length _ = length _ |- _ => rename h into Hlen end. rewrite Hlen.
    constructor; [| eapply (IH ((nm, y) :: l)); eassumption].
    match goal with h : alpha _ n _, h' : means _ n ?E |- _ => pose proof (alpha_means _ _ _ E h) as HI end.
    rewrite !map_app, !map_rev, map_fst_combine, map_snd_combine in HI by exact Hlen. now apply HI.
Qed.

(** ** The context is restored, by every phrase and in every context *)
Definition keeps {A} (m : conv A) : Prop := forall ctx, snd (m ctx) = ctx.
Lemma keeps_ret {A} (x : A) : keeps (ret x).
Proof. intros ctx. reflexivity. Qed.
Lemma keeps_fail {A} e : keeps (@fail A e).
Proof. intros ctx. reflexivity. Qed.
Lemma keeps_bind {A B} (m : conv A) (k : A -> conv B) : keeps m -> (forall x, keeps (k x)) -> keeps (bind m k).
Proof.
  intros Hm Hk ctx. unfold bind. specialize (Hm ctx). destruct (m ctx) as [[x | e | |] ctx']; cbn in Hm; subst ctx'; auto. apply Hk.
Qed.
Lemma keeps_variables {A} names (m : conv A) : keeps m -> keeps (with_variables names m).
Proof.
  intros Hm ctx. unfold with_variables. specialize (Hm (rev (map n_content names) ++ ctx)).
  destruct (m (rev (map n_content names) ++ ctx)) as [r ctx']. cbn in Hm. subst ctx'. rewrite app_length.
  destruct (Nat.ltb_spec (length (rev (map n_content names)) + length ctx) (length ctx)); [lia |]. cbn [snd].
  rewrite Nat.add_sub. rewrite skipn_app, skipn_all, Nat.sub_diag. reflexivity.
Qed.
Lemma keeps_args f ns : Forall (fun n => keeps (f n)) ns -> keeps (convert_args f ns).
Proof.
  induction 1 as [| n ns Hn _ IH]; cbn [convert_args]; [apply keeps_ret |].
  apply keeps_bind; [exact Hn |]. intros x. apply keeps_bind; [exact IH |]. intros y. apply keeps_ret.
Qed.
Lemma keeps_rest f ps : Forall (fun x => keeps (f (fst x))) ps -> forall punct, keeps (convert_rest f punct ps).
Proof.
  induction 1 as [| [n p] ns Hn _ IH]; intros punct; cbn [convert_rest]; [apply keeps_ret |].
  apply keeps_bind; [exact Hn |]. intros x. apply keeps_bind; [apply IH |]. intros y. apply keeps_ret.
Qed.
Lemma convert_keeps join n : keeps (convert join n).
Proof.
  induction n using node_ind'; cbn [convert]; try apply keeps_ret.
  - intros ctx. destruct (lookup ctx _); reflexivity.
  - apply keeps_bind; [exact IHn | intros x; apply keeps_ret].
  - exact IHn.
  - destruct ts as [| t ts]; [apply keeps_fail |]. inversion H; subst. apply keeps_bind; [assumption |]. intros x.
    apply keeps_bind; [now apply keeps_args |]. intros [| y l]; apply keeps_ret.
  - destruct ps as [| [t p] ts]; [apply keeps_fail |]. inversion H; subst. apply keeps_bind; [assumption |]. intros x.
    apply keeps_bind; [now apply keeps_rest |]. intros [| y l]; apply keeps_ret.
  - apply keeps_bind; [exact IHn | intros x; apply keeps_ret].
  - destruct ps as [| [t p] ts]; [apply keeps_fail |]. inversion H; subst. apply keeps_bind; [assumption |]. intros x.
    apply keeps_bind; [now apply keeps_rest |]. intros [| y l]; apply keeps_ret.
  - apply keeps_bind; [now apply keeps_variables | intros x; apply keeps_ret].
Qed.
(** A statement adds the let-names it got past. *)
Lemma convert_stmt_adds join s : forall ctx, exists j,
  snd (convert_stmt join s ctx) = map Spanned (skipn j (let_names s)) ++ ctx
  /\ (forall e, fst (convert_stmt join s ctx) = Ok e -> j = 0).
Proof.
  induction s as [k n semi | k nm args eq n semi next IH]; intros ctx; cbn [convert_stmt let_names].
  - exists 0. split; [| reflexivity]. apply (keeps_bind (convert join n)); [apply convert_keeps | intros x; apply keeps_ret].
  - set (b := match args with [] => convert join n | _ :: _ => _ end).
    assert (Hb : keeps b).
    { unfold b. destruct args; [apply convert_keeps |]. apply keeps_bind; [apply keeps_variables; apply convert_keeps | intros x; apply keeps_ret]. }
    clearbody b. specialize (Hb ctx). unfold bind. destruct (b ctx) as [[x | e | |] ctx']; cbn in Hb; subst ctx'.
    + destruct (IH (push_variable (new_let (Spanned nm)) ctx)) as (j & Hj & Hok). unfold bind.
      destruct (convert_stmt join next (push_variable (new_let (Spanned nm)) ctx)) as [[y | e | |] ctx']; cbn [fst snd] in *; subst ctx'.
      * specialize (Hok y eq_refl). subst j. exists 0. split; [| reflexivity]. cbn [skipn]. rewrite map_app, <- app_assoc. reflexivity.
      * destruct (Nat.leb_spec j (length (let_names next))).
        -- exists j. split; [| discriminate]. rewrite skipn_app. replace (j - length (let_names next)) with 0 by lia.
           rewrite map_app, <- app_assoc. reflexivity.
        -- exists (length (let_names next)). split; [| discriminate]. rewrite skipn_app, Nat.sub_diag, skipn_all, skipn_all2 by lia. reflexivity.
      * destruct (Nat.leb_spec j (length (let_names next))).
        -- exists j. split; [| discriminate]. rewrite skipn_app. replace (j - length (let_names next)) with 0 by lia.
           rewrite map_app, <- app_assoc. reflexivity.
        -- exists (length (let_names next)). split; [| discriminate]. rewrite skipn_app, Nat.sub_diag, skipn_all, skipn_all2 by lia. reflexivity.
      * destruct (Nat.leb_spec j (length (let_names next))).
        -- exists j. split; [| discriminate]. rewrite skipn_app. replace (j - length (let_names next)) with 0 by lia.
           rewrite map_app, <- app_assoc. reflexivity.
        -- exists (length (let_names next)). split; [| discriminate]. rewrite skipn_app, Nat.sub_diag, skipn_all, skipn_all2 by lia. reflexivity.
    + exists (S (length (let_names next))). split; [| discriminate]. rewrite skipn_all2 by (rewrite app_length; cbn; lia). reflexivity.
    + exists (S (length (let_names next))). split; [| discriminate]. rewrite skipn_all2 by (rewrite app_length; cbn; lia). reflexivity.
    + exists (S (length (let_names next))). split; [| discriminate]. rewrite skipn_all2 by (rewrite app_length; cbn; lia). reflexivity.
Qed.

(** ** Names of merged expressions *)
Lemma kind_ge_rank a b : kind_ge a b = true <-> (match b with KLabel => 2 | KLet => 1 | KVariable => 0 end)
  <= (match a with KLabel => 2 | KLet => 1 | KVariable => 0 end).
Proof. destruct a, b; cbn; split; intros; try lia; auto; discriminate. Qed.
Lemma merge_assoc a b c : merge a (merge b c) = merge (merge a b) c.
Proof. destruct a as [[? []] |], b as [[? []] |], c as [[? []] |]; reflexivity. Qed.

(** ** Positions *)
Lemma extent_join join ts : ts <> [] -> extent join ts (join_spans join ts).
Proof.
  intros H. unfold join_spans. destruct ts as [| t ts]; [congruence |]. destruct ts as [| u ts].
  - left. exists t. split; reflexivity.
  - right. destruct (exists_last (l := u :: ts)) as (m & z & E); [discriminate |]. rewrite E. exists t, m, z. split; [reflexivity |].
    cbn [map]. rewrite map_app. cbn [map]. destruct (map token_span m ++ [token_span z]) as [| a l] eqn:El; [destruct (map token_span m); discriminate El |].
    rewrite <- El. rewrite last_last. reflexivity.
Qed.
Lemma wf_tokens L n : wf L n -> to_tokens n <> [].
Proof.
  intros H E. pose proof (wf_starts n L H) as Hs. destruct n; try (rewrite E in Hs; discriminate Hs). discriminate E.
Qed.
Definition yields {A} (P : A -> Prop) (m : conv A) : Prop := forall ctx x, fst (m ctx) = Ok x -> P x.
Lemma yields_ret {A} (P : A -> Prop) x : P x -> yields P (ret x).
Proof. intros H ctx y [= <-]. exact H. Qed.
Lemma yields_bind {A B} (P : A -> Prop) (Q : B -> Prop) m k : yields P m -> (forall x, P x -> yields Q (k x)) -> yields Q (bind m k).
Proof.
  intros Hm Hk ctx y E. unfold bind in E. specialize (Hm ctx). destruct (m ctx) as [[x | | |] ctx']; try discriminate E.
  apply (Hk x (Hm x eq_refl) ctx'). exact E.
Qed.
Lemma yields_variables {A} (P : A -> Prop) names m : yields P m -> yields P (with_variables names m).
Proof.
  intros Hm ctx y E. unfold with_variables in E. specialize (Hm (rev (map n_content names) ++ ctx)).
  destruct (m (rev (map n_content names) ++ ctx)) as [r ctx']. destruct (Nat.ltb _ _); [discriminate E |]. cbn in E, Hm. now apply Hm.
Qed.
Lemma yields_args (P : node -> nexpr -> Prop) f ns : Forall (fun n => yields (P n) (f n)) ns -> yields (Forall2 P ns) (convert_args f ns).
Proof.
  induction 1 as [| n ns Hn _ IH]; cbn [convert_args]; [apply yields_ret; constructor |].
  eapply yields_bind; [exact Hn |]. intros x Hx. eapply yields_bind; [exact IH |]. intros y Hy. apply yields_ret. now constructor.
Qed.
Lemma yields_rest (P : node -> nexpr -> Prop) f L ps : Forall (fun x => yields (P (fst x)) (f (fst x))) ps -> ps <> [] -> punctuated L ps -> forall punct,
  yields (fun r => Forall2 P (map fst ps) (map snd r) /\ Some punct :: map snd ps = map (fun r => Some (fst r)) r ++ [None]) (convert_rest f punct ps).
Proof.
  intros H Hne Hp. revert H. induction Hp as [x Hx | x sp l Hx Hl IH]; intros H punct; inversion H as [| ? ? Hf Hfs]; subst; cbn [convert_rest].
  - eapply yields_bind; [exact Hf |]. intros y Hy. eapply yields_bind; [apply yields_ret with (P := fun r => r = []); reflexivity |].
    intros r ->. apply yields_ret. cbn. split; [now constructor | reflexivity].
  - assert (l <> []) by (destruct Hl; discriminate). eapply yields_bind; [exact Hf |]. intros y Hy.
    eapply yields_bind; [apply (IH ltac:(assumption) Hfs) |]. intros r [Hr1 Hr2]. apply yields_ret. cbn [map fst snd app pair_span] in *. split; [now constructor |].
    now rewrite Hr2.
Qed.
Lemma convert_located join n : forall L, wf L n -> yields (located join n) (convert join n).
Proof.
  induction n using node_ind'; intros L Hw; pose proof (extent_join join _ (wf_tokens _ _ Hw)) as Hx; cbn [convert].
  - apply yields_ret. constructor.
  - intros ctx e E. destruct (lookup ctx _); [| discriminate E]. injection E as <-. constructor.
  - apply yields_ret. constructor.
  - assert (Wn : wf LvTerm n) by (inversion Hw; subst; [assumption |]; match goal with h : wf LvAlt _ |- _ => inversion h end).
    eapply yields_bind; [eapply IHn; exact Wn |]. intros e He. apply yields_ret. now constructor.
  - assert (Wn : wf LvExpr n) by (inversion Hw; subst; [assumption |]; match goal with h : wf LvAlt _ |- _ => inversion h end).
    intros ctx e E. constructor. eapply IHn; eassumption.
  - assert (Wn : exists t ts', ts = t :: ts' /\ wf LvTerm t /\ Forall (wf LvTerm) ts').
    { inversion Hw; subst; [eauto 6 |]. match goal with h : wf LvAlt _ |- _ => inversion h end. }
    destruct Wn as (t & ts' & -> & Wt & Wts). inversion H as [| ? ? Ht Hts]; subst.
    eapply yields_bind; [eapply Ht; exact Wt |]. intros e He.
    assert (Hc : Forall (fun n => yields (located join n) (convert join n)) ts').
    { clear - Hts Wts. induction Hts as [| x l Hx _ IH]; [constructor |]. inversion Wts; subst. constructor; [eapply Hx; eassumption | now apply IH]. }
    eapply yields_bind; [apply yields_args; exact Hc |].
    intros es Hes. destruct es as [| e1 es].
    + inversion Hes; subst. apply yields_ret. now constructor.
    + apply yields_ret. constructor; [exact He | exact Hes | discriminate | exact Hx].
  - assert (Hb : punctuated (wf LvCall) ps).
    { inversion Hw; subst; [assumption |]. match goal with h : wf LvAlt _ |- _ => now inversion h end. }
    destruct ps as [| [t p] ps']; [inversion Hb |]. inversion H as [| ? ? Ht Hts]; subst.
    assert (Wt : wf LvCall t) by (inversion Hb; assumption).
    eapply yields_bind; [eapply Ht; exact Wt |]. intros e He. inversion Hb as [? ? | ? sp ? ? Hl]; subst.
    + eapply yields_bind; [apply yields_ret with (P := fun r => r = []); reflexivity |]. intros r ->. apply yields_ret. now constructor.
    + assert (Hne : ps' <> []) by (destruct Hl; discriminate).
      assert (Hc : Forall (fun x => yields (located join (fst x)) (convert join (fst x))) ps').
      { clear - Hts Hl. induction Hl as [x Hx | x sp l Hx Hl IH]; inversion Hts as [| ? ? Hy Hys]; subst; constructor; auto; eapply Hy; exact Hx. }
      eapply yields_bind; [apply (yields_rest _ _ _ _ Hc Hne Hl) |]. intros es [Hes1 Hes2]. destruct es as [| e1 es].
      * destruct ps'; [congruence | inversion Hes1].
      * apply yields_ret. constructor; [constructor; [exact He | exact Hes1] | discriminate | exact Hes2 | exact Hx].
  - assert (Wn : wf LvCat n) by (inversion Hw; subst; [assumption |]; match goal with h : wf LvAlt _ |- _ => inversion h end).
    eapply yields_bind; [eapply IHn; exact Wn |]. intros e He. apply yields_ret. now constructor.
  - assert (Hb : punctuated (wf LvLabelled) ps).
    { inversion Hw; subst; [assumption |]. match goal with h : wf LvAlt _ |- _ => now inversion h end. }
    destruct ps as [| [t p] ps']; [inversion Hb |]. inversion H as [| ? ? Ht Hts]; subst.
    assert (Wt : wf LvLabelled t) by (inversion Hb; assumption).
    eapply yields_bind; [eapply Ht; exact Wt |]. intros e He. inversion Hb as [? ? | ? sp ? ? Hl]; subst.
    + eapply yields_bind; [apply yields_ret with (P := fun r => r = []); reflexivity |]. intros r ->. apply yields_ret. now constructor.
    + assert (Hne : ps' <> []) by (destruct Hl; discriminate).
      assert (Hc : Forall (fun x => yields (located join (fst x)) (convert join (fst x))) ps').
      { clear - Hts Hl. induction Hl as [x Hx | x sp l Hx Hl IH]; inversion Hts as [| ? ? Hy Hys]; subst; constructor; auto; eapply Hy; exact Hx. }
      eapply yields_bind; [apply (yields_rest _ _ _ _ Hc Hne Hl) |]. intros es [Hes1 Hes2]. destruct es as [| e1 es].
      * destruct ps'; [congruence | inversion Hes1].
      * apply yields_ret. constructor; [constructor; [exact He | exact Hes1] | discriminate | exact Hes2 | exact Hx].
  - assert (Wn : wf LvAlt n) by (inversion Hw; subst; [match goal with h : wf LvAlt _ |- _ => now inversion h end | assumption]).
    eapply yields_bind; [apply yields_variables; eapply IHn; exact Wn |]. intros e He. apply yields_ret. now constructor.
Qed.
Lemma convert_stmt_located join s : wf_stmt s -> yields (located_stmt join s) (convert_stmt join s).
Proof.
  induction 1 as [k n semi Hn | k x args eq n semi next Ha Hn Hnext IH].
  - assert (Hx : extent join (stmt_tokens (SGoal k n semi)) (stmt_span join (SGoal k n semi))) by (apply extent_join; discriminate).
    cbn [convert_stmt]. eapply yields_bind; [eapply convert_located; exact Hn |]. intros e He. apply yields_ret. now constructor.
  - assert (Hx : extent join (stmt_tokens (SLet k x args eq n semi next)) (stmt_span join (SLet k x args eq n semi next))) by (apply extent_join; discriminate).
    cbn [convert_stmt]. destruct args as [| a args].
    + eapply yields_bind; [eapply convert_located; exact Hn |]. intros e He.
      eapply yields_bind with (P := fun _ => True); [now intros ctx y _ |]. intros _ _. eapply yields_bind; [exact IH |]. intros b Hb.
      apply yields_ret. now constructor.
    + set (sp := stmt_span join (SLet k x (a :: args) eq n semi next)) in *.
      eapply yields_bind with (P := fun b => exists e names, b = ELam (Ann None sp) names e /\ located join n e).
      { eapply yields_bind; [apply yields_variables; eapply convert_located; exact Hn |]. intros e He. apply yields_ret. eauto. }
      intros b (e & names & -> & He). eapply yields_bind with (P := fun _ => True); [now intros ctx y _ |]. intros _ _.
      eapply yields_bind; [exact IH |]. intros b Hb. apply yields_ret. unfold set_name. cbn [set_ann e_span e_ann a_span]. now constructor.
Qed.
