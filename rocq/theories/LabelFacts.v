(** * LabelFacts: fixed points that carry different names are never shared. *)
From Coq Require Import String.
From Verif Require Export SpecSharing PropMain DistinctFacts PropSame.
From Coq Require Import List Lia.
Import ListNotations.
Open Scope list_scope.

(** The names of the bodies of fixed points, outermost first. *)
Fixpoint fnames (e : texpr) : list (option name) :=
  match e with
  | TEps _ _ | TLit _ _ _ | TVar _ _ _ => []
  | TCat _ l _ | TAlt _ l _ => flat_map fnames l
  | TFix _ b => t_name b :: fnames b
  end.
Definition differ (l : list (option name)) : Prop := ForallOrdPairs (fun a b => oname_eqb a b = false) l.
Inductive occurs : texpr -> list texpr -> texpr -> Prop :=
| occ_here e : occurs e [] e
| occ_cat a l t x B f : In x l -> occurs x B f -> occurs (TCat a l t) B f
| occ_alt a l t x B f : In x l -> occurs x B f -> occurs (TAlt a l t) B f
| occ_fix a i B f : occurs i B f -> occurs (TFix a i) (B ++ [i]) f.
Lemma occurs_trans e B f : occurs e B f -> forall B' g, occurs f B' g -> occurs e (B' ++ B) g.
Proof.
  induction 1 as [e | a l t x B f Hx H IH | a l t x B f Hx H IH | a i B f H IH]; intros B' g H'.
  - now rewrite app_nil_r.
  - eapply occ_cat; eauto.
  - eapply occ_alt; eauto.
  - rewrite app_assoc. constructor. now apply IH.
Qed.
Lemma inside_occurs root B e : inside root B e -> occurs root B e.
Proof.
  induction 1 as [| B a l t x _ IH Hx | B a l t x _ IH Hx | B a i _ IH]; [constructor | | |].
  - apply (occurs_trans _ _ _ IH []). eapply occ_cat; [exact Hx | constructor].
  - apply (occurs_trans _ _ _ IH []). eapply occ_alt; [exact Hx | constructor].
  - apply (occurs_trans _ _ _ IH [i]). apply (occ_fix a i []). constructor.
Qed.
Lemma occurs_name e B f : occurs e B f -> forall a i, f = TFix a i -> In (t_name i) (fnames e).
Proof.
  induction 1 as [e | a l t x B f Hx H IH | a l t x B f Hx H IH | a i B f H IH]; intros a' i' E; cbn [fnames].
  - subst e. now left.
  - apply in_flat_map. eauto.
  - apply in_flat_map. eauto.
  - right. eauto.
Qed.
Lemma differ_app l l' : differ (l ++ l') -> differ l /\ differ l' /\ forall a b, In a l -> In b l' -> oname_eqb a b = false.
Proof.
  unfold differ. induction l as [| x l IH]; cbn [app]; intros H; [repeat split; [constructor | exact H | intros a b []] |]. inversion H as [| ? ? Hx Hl]; subst. destruct (IH Hl) as (H1 & H2 & H3).
  apply Forall_app in Hx as [Hx1 Hx2]. split; [now constructor |]. split; [exact H2 |]. intros a b [<- | Ha] Hb; [rewrite Forall_forall in Hx2; auto | auto].
Qed.
Lemma one_place e : differ (fnames e) -> forall B a i B' a' i', occurs e B (TFix a i) -> occurs e B' (TFix a' i') -> oname_eqb (t_name i) (t_name i') = true -> B = B'.
Proof.
  assert (Ls : forall l, Forall (fun e => differ (fnames e) -> forall B a i B' a' i', occurs e B (TFix a i) -> occurs e B' (TFix a' i') -> oname_eqb (t_name i) (t_name i') = true -> B = B') l ->
    differ (flat_map fnames l) -> forall x x' B a i B' a' i', In x l -> In x' l -> occurs x B (TFix a i) -> occurs x' B' (TFix a' i') -> oname_eqb (t_name i) (t_name i') = true -> B = B').
  { induction 1 as [| e1 l He _ IH]; intros Hd x x' B a i B' a' i' Hx Hx' Ho Ho' Hn; [destruct Hx |]. cbn [flat_map] in Hd. apply differ_app in Hd as (D1 & D2 & D3).
    destruct Hx as [<- | Hx], Hx' as [<- | Hx'].
    - exact (He D1 _ _ _ _ _ _ Ho Ho' Hn).
    - rewrite (D3 (t_name i) (t_name i')) in Hn; [discriminate Hn | eapply occurs_name; eauto | apply in_flat_map; exists x'; split; [exact Hx' | eapply occurs_name; eauto]].
    - rewrite oname_eqb_sym, (D3 (t_name i') (t_name i)) in Hn; [discriminate Hn | eapply occurs_name; eauto | apply in_flat_map; exists x; split; [exact Hx | eapply occurs_name; eauto]].
    - exact (IH D2 x x' B a i B' a' i' Hx Hx' Ho Ho' Hn). }
  induction e using texpr_ind'; intros Hd B a0 i0 B' a' i' Ho Ho' Hn; try solve [inversion Ho].
  - inversion Ho as [| ? ? ? x ? ? Hx Hox | |]; subst. inversion Ho' as [| ? ? ? x' ? ? Hx' Hox' | |]; subst. cbn [fnames] in Hd. exact (Ls _ H Hd x x' B a0 i0 B' a' i' Hx Hx' Hox Hox' Hn).
  - inversion Ho as [| | ? ? ? x ? ? Hx Hox |]; subst. inversion Ho' as [| | ? ? ? x' ? ? Hx' Hox' |]; subst. cbn [fnames] in Hd. exact (Ls _ H Hd x x' B a0 i0 B' a' i' Hx Hx' Hox Hox' Hn).
  - cbn [fnames] in Hd. inversion Hd as [| ? ? Hh Ht]; subst. rewrite Forall_forall in Hh. inversion Ho; subst; inversion Ho'; subst.
    + reflexivity.
    + rewrite Hh in Hn; [discriminate Hn |]. eapply occurs_name; eauto.
    + rewrite oname_eqb_sym, Hh in Hn; [discriminate Hn |]. eapply occurs_name; eauto.
    + f_equal. eapply IHe; eauto.
Qed.
Lemma occurs_closed e B f : occurs e B f -> forall n, closed_below n (gram_of_t e) -> closed_below (length B + n) (gram_of_t f).
Proof.
  induction 1 as [e | a l t x B f Hx H IH | a l t x B f Hx H IH | a i B f H IH]; intros n Hc.
  - exact Hc.
  - apply IH. cbn [gram_of_t closed_below] in Hc. apply closed_all in Hc. rewrite Forall_forall in Hc. apply Hc. now apply in_map.
  - apply IH. cbn [gram_of_t closed_below] in Hc. apply closed_all in Hc. rewrite Forall_forall in Hc. apply Hc. now apply in_map.
  - rewrite app_length. cbn [length]. replace (length B + 1 + n) with (length B + S n) by lia. apply IH. exact Hc.
Qed.
Lemma texpr_eqb_name x y : texpr_eqb x y = true -> oname_eqb (t_name x) (t_name y) = true.
Proof. intros H. destruct x; cbn [texpr_eqb] in H; now apply andb_prop in H as [H _]. Qed.
Theorem differ_sharing r : closed_below 0 (gram_of_t r) -> differ (fnames r) -> sharing_ok r.
Proof.
  intros Hc Hd B a i B' a' i' H H' He n Hf. apply inside_occurs in H, H'. pose proof (one_place r Hd _ _ _ _ _ _ H H' (texpr_eqb_name _ _ He)) as <-.
  pose proof (occurs_closed _ _ _ H 0 Hc) as K. rewrite PeanoNat.Nat.add_0_r in K. destruct (nth_error B n) as [x |] eqn:En; [exists x, x; auto using texpr_eqb_refl |].
  exfalso. apply nth_error_None in En. cbn [gram_of_t closed_below] in K. apply (closed_not_free i (S (length B)) (S n) K); [lia | exact Hf].
Qed.

(** ** The names inference gives *)
Fixpoint enames (nm : option name) (e : nexpr) : list (option name) :=
  match e with
  | ECat _ f r | EAlt _ f r => enames (e_name f) f ++ flat_map (fun x => enames (e_name (snd x)) (snd x)) r
  | EFix _ (ELam ai _ body) => let b := merge_all [a_name ai; e_name body; nm] in b :: enames b body
  | _ => []
  end.

Lemma infer_name fuel nm c e r : infer fuel nm c e = Ok r -> t_name r = nm.
Proof.
  intros E. destruct e as [a | a s | a f l | a f l | a i | a i | a p i | a f g | a b i].
  all: try (cbn in E; injection E as <-; reflexivity). all: try discriminate E.
  - rewrite infer_cat in E. destruct (infer fuel (e_name f) c f); try discriminate. destruct (nullable _); [discriminate |]. destruct (seq_go _ _ _) as [[? ?] | | |]; try discriminate. injection E as <-. reflexivity.
  - rewrite infer_alt in E. destruct (infer fuel (e_name f) c f); try discriminate. destruct (alt_go _ _ _) as [[? ?] | | |]; try discriminate. injection E as <-. reflexivity.
  - destruct i; try discriminate E. rewrite infer_fix in E. cbn zeta in E. destruct (fix_loop _ _ _); try discriminate. injection E as <-. reflexivity.
  - cbn in E. destruct (get_variable_type c i); try discriminate. injection E as <-. reflexivity.
Qed.
Lemma infer_names e : forall fuel nm c r, infer fuel nm c e = Ok r -> fnames r = enames nm e.
Proof.
  induction e using nexpr_ind_fix; intros fuel nm c r' E.
  - cbn in E. injection E as <-. reflexivity.
  - cbn in E. injection E as <-. reflexivity.
  - rewrite infer_cat in E. destruct (infer fuel (e_name e) c e) as [f' | | |] eqn:Ef; try discriminate. destruct (nullable (get_type f')); [discriminate |].
    cbn zeta in E. match type of E with match ?g with _ => _ end = _ => destruct g as [[ts t] | | |] eqn:Eg; try discriminate end. injection E as <-. cbn [fnames enames flat_map]. f_equal; [eauto |].
    clear Ef. revert Eg. generalize (get_type f'). revert ts t. induction H as [| [p x] l Hx _ IHl]; intros ts t t0 Eg; cbn [seq_go] in Eg; [injection Eg as <- _; reflexivity |].
    destruct (infer fuel (e_name x) (push_unguard c) x) as [x' | | |] eqn:Ex; try discriminate. destruct (cset_disjoint _ _); [| discriminate]. match type of Eg with match ?g with _ => _ end = _ => destruct g as [[ts' t'] | | |] eqn:Eg'; try discriminate end. injection Eg as <- _.
    cbn [flat_map snd]. f_equal; [exact (Hx _ _ _ _ Ex) |]. exact (IHl _ _ _ Eg').
  - rewrite infer_alt in E. destruct (infer fuel (e_name e) c e) as [f' | | |] eqn:Ef; try discriminate.
    match type of E with match ?g with _ => _ end = _ => destruct g as [[ts t] | | |] eqn:Eg; try discriminate end. injection E as <-. cbn [fnames enames flat_map]. f_equal; [eauto |].
    clear Ef. revert Eg. generalize (get_type f'). revert ts t. induction H as [| [p x] l Hx _ IHl]; intros ts t t0 Eg; cbn [alt_go] in Eg; [injection Eg as <- _; reflexivity |].
    destruct (infer fuel (e_name x) c x) as [x' | | |] eqn:Ex; try discriminate. destruct (nullable _ && nullable _); [discriminate |]. destruct (cset_disjoint _ _); [| discriminate]. match type of Eg with match ?g with _ => _ end = _ => destruct g as [[ts' t'] | | |] eqn:Eg'; try discriminate end. injection Eg as <- _.
    cbn [flat_map snd]. f_equal; [exact (Hx _ _ _ _ Ex) |]. exact (IHl _ _ _ Eg').
  - rewrite infer_fix in E. cbn zeta in E. destruct (fix_loop _ _ _) as [b' | | |] eqn:El; try discriminate. injection E as <-. apply fix_loop_ok in El. cbn [fnames enames]. f_equal; [| eauto].
    now apply infer_name in El.
  - rewrite infer_fix in E. destruct e; try discriminate. exfalso. eapply H; reflexivity.
  - cbn in E. destruct (get_variable_type c i); try discriminate. injection E as <-. reflexivity.
  - discriminate E.
  - discriminate E.
  - discriminate E.
Qed.
