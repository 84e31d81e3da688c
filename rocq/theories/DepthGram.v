(** * DepthGram: trees of a recursive grammar are as high as one likes. *)
From Verif Require Import SpecDepth SpecGuard TreeFacts ExactFacts ViableFacts.
From Coq Require Import List Lia PeanoNat.

Lemma used_list i gs : (fix go l := match l with [] => False | g :: l' => used i g \/ go l' end) gs <-> Exists (used i) gs.
Proof. induction gs as [| g gs IH]; [split; [intros [] | intros H; inversion H] |]. rewrite Exists_cons, <- IH. reflexivity. Qed.
Lemma recursive_list gs : (fix go l := match l with [] => False | g :: l' => recursive g \/ go l' end) gs <-> Exists recursive gs.
Proof. induction gs as [| g gs IH]; [split; [intros [] | intros H; inversion H] |]. rewrite Exists_cons, <- IH. reflexivity. Qed.

Lemma productive_tree E g : productive (map yields E) g -> exists t, trees_of E g t.
Proof. intros H. apply productive_word in H as [w Hw]. apply lang_trees in Hw as (t & Ht & _). eauto. Qed.
Lemma productive_fix E g : productive (map yields E) (GFix g) -> productive (map yields (trees_of E (GFix g) :: E)) g.
Proof.
  intros [_ H]. cbn [map]. eapply productive_mono; [| exact H]. apply lenv_le_cons; [| apply lenv_le_refl]. intros w Hw. now apply (lang_trees (GFix g)) in Hw.
Qed.

Definition top (ts : list tree) : nat := fold_right Nat.max 0 (map height ts).
(** A high tree of one part gives one of the whole. *)
Lemma cat_high E (P : gram -> Prop) n gs : productives (map yields E) gs -> Forall (fun g => P g -> productive (map yields E) g -> exists t, trees_of E g t /\ n <= height t) gs -> Exists P gs ->
  exists ts, trees_cats E gs ts /\ n <= top ts.
Proof.
  intros Hp H. assert (All : forall gs, productives (map yields E) gs -> exists ts, trees_cats E gs ts).
  { clear. induction gs as [| g gs IH]; intros Hp; [now exists [] |]. destruct Hp as [H1 H2]. destruct (productive_tree _ _ H1) as [t Ht]. destruct (IH H2) as [ts Hts]. exists (t :: ts). cbn. eauto 10. }
  induction H as [| g gs Hg _ IH]; intros Hx; [inversion Hx |]. destruct Hp as [H1 H2]. apply Exists_cons in Hx as [Hx | Hx].
  - destruct (Hg Hx H1) as (t & Ht & Hn). destruct (All gs H2) as [ts Hts]. exists (t :: ts). split; [cbn; eauto 10 |]. unfold top in *. cbn. lia.
  - destruct (productive_tree _ _ H1) as [t Ht]. destruct (IH H2 Hx) as (ts & Hts & Hn). exists (t :: ts). split; [cbn; eauto 10 |]. unfold top in *. cbn. lia.
Qed.
Lemma alt_high E (P : gram -> Prop) n gs : productives (map yields E) gs -> Forall (fun g => P g -> productive (map yields E) g -> exists t, trees_of E g t /\ n <= height t) gs -> Exists P gs ->
  forall k, exists t, trees_alts E k gs t /\ n <= height t.
Proof.
  intros Hp H. induction H as [| g gs Hg _ IH]; intros Hx k; [inversion Hx |]. destruct Hp as [H1 H2]. apply Exists_cons in Hx as [Hx | Hx].
  - destruct (Hg Hx H1) as (t & Ht & Hn). exists (NAlt k t). cbn. split; [left; eauto | lia].
  - destruct (IH H2 Hx (S k)) as (t & Ht & Hn). exists t. cbn. auto.
Qed.

Lemma used_high g : forall E i t, productive (map yields E) g -> used i g -> nth i E treeset_empty t -> exists t', trees_of E g t' /\ S (height t) <= height t'.
Proof.
  induction g using gram_ind'; intros E v t Hp Hu Ht.
  - destruct Hu.
  - destruct Hu.
  - apply productive_cat in Hp as [_ Hp]. cbn [used] in Hu. apply used_list in Hu.
    destruct (cat_high E (used v) (S (height t)) l Hp) as (ts & Hts & Hn); [| exact Hu |].
    + eapply Forall_impl; [| exact H]. cbn. intros g Hg Hu' Hp'. exact (Hg E v t Hp' Hu' Ht).
    + exists (NCat ts). split; [apply trees_of_cat; eauto |]. unfold top in Hn. cbn. lia.
  - apply productive_alt in Hp as [_ Hp]. cbn [used] in Hu. apply used_list in Hu.
    destruct (alt_high E (used v) (S (height t)) l Hp) with (k := 0) as (t' & Ht' & Hn); [| exact Hu |].
    + eapply Forall_impl; [| exact H]. cbn. intros g Hg Hu' Hp'. exact (Hg E v t Hp' Hu' Ht).
    + exists t'. split; [now rewrite trees_of_alt | exact Hn].
  - cbn [used] in Hu. destruct (IHg (trees_of E (GFix g) :: E) (S v) t (productive_fix _ _ Hp) Hu Ht) as (t' & Ht' & Hn). exists t'. split; [now apply trees_fix_unfold | exact Hn].
  - cbn in Hu. subst v. exists (NBox t). split; [exists t; auto | cbn; lia].
Qed.
Lemma recursive_high n g : forall E, productive (map yields E) g -> recursive g -> exists t, trees_of E g t /\ n <= height t.
Proof.
  induction g using gram_ind'; intros E Hp Hr.
  - destruct Hr.
  - destruct Hr.
  - apply productive_cat in Hp as [_ Hp]. cbn [recursive] in Hr. apply recursive_list in Hr.
    destruct (cat_high E recursive n l Hp) as (ts & Hts & Hn); [| exact Hr |].
    + eapply Forall_impl; [| exact H]. cbn. auto.
    + exists (NCat ts). split; [apply trees_of_cat; eauto |]. unfold top in Hn. cbn. lia.
  - apply productive_alt in Hp as [_ Hp]. cbn [recursive] in Hr. apply recursive_list in Hr.
    destruct (alt_high E recursive n l Hp) with (k := 0) as (t' & Ht' & Hn); [| exact Hr |].
    + eapply Forall_impl; [| exact H]. cbn. auto.
    + exists t'. split; [now rewrite trees_of_alt | exact Hn].
  - destruct Hr as [Hr | Hr].
    + clear IHg. induction n as [| n IHn].
      * destruct (productive_tree _ _ Hp) as [t Ht]. exists t. split; [exact Ht | lia].
      * destruct IHn as (t & Ht & Hn). destruct (used_high g (trees_of E (GFix g) :: E) 0 t (productive_fix _ _ Hp) Hr Ht) as (t' & Ht' & Hn'). exists t'. split; [now apply trees_fix_unfold | lia].
    + destruct (IHg _ (productive_fix _ _ Hp) Hr) as (t & Ht & Hn). exists t. split; [now apply trees_fix_unfold | exact Hn].
  - destruct Hr.
Qed.

(** Without recursion there is a bound. *)
Lemma flat_low : forall g, ~ recursive g -> forall D, exists D', forall E, (forall i t, used i g -> nth i E treeset_empty t -> height t <= D) -> forall t, trees_of E g t -> height t <= D'.
Proof.
  assert (Many : forall gs, Forall (fun g => ~ recursive g -> forall D, exists D', forall E, (forall i t, used i g -> nth i E treeset_empty t -> height t <= D) -> forall t, trees_of E g t -> height t <= D') gs ->
    ~ Exists recursive gs -> forall D, exists D', forall E, (forall i t, Exists (used i) gs -> nth i E treeset_empty t -> height t <= D) -> Forall (fun g => forall t, trees_of E g t -> height t <= D') gs).
  { intros gs H. induction H as [| g gs Hg _ IH]; intros Hn D; [exists 0; constructor |].
    destruct (Hg (fun K => Hn (Exists_cons_hd _ _ _ K)) D) as [D1 H1]. destruct (IH (fun K => Hn (Exists_cons_tl _ K)) D) as [D2 H2]. exists (Nat.max D1 D2). intros E HE. constructor.
    - intros t Ht. assert (height t <= D1); [| lia]. apply (H1 E); [| exact Ht]. intros i t' Hu. apply HE. now constructor.
    - eapply Forall_impl; [| apply (H2 E); intros i t' Hu; apply HE; now apply Exists_cons_tl]. cbn. intros a Ha t Ht. specialize (Ha t Ht). lia. }
  intros g. induction g using gram_ind'; intros Hn D.
  - exists 1. intros E _ t ->. reflexivity.
  - exists 1. intros E _ t ->. reflexivity.
  - cbn [recursive] in Hn. rewrite recursive_list in Hn. destruct (Many l H Hn D) as [D' HD]. exists (S D'). intros E HE t Ht. apply trees_of_cat in Ht as (ts & -> & Ht). cbn [height]. cbn. apply le_n_S.
    specialize (HD E). clear Many H Hn. assert (Hl : Forall (fun g => forall t, trees_of E g t -> height t <= D') l) by (apply HD; intros i t Hu; apply HE; now apply used_list). clear HD HE.
    revert ts Ht. induction Hl as [| g l Hg _ IH]; intros ts Ht; cbn in Ht; [subst ts; cbn; lia |]. destruct Ht as (t & ts' & -> & Ht & Hts). cbn. specialize (Hg t Ht). specialize (IH ts' Hts). lia.
  - cbn [recursive] in Hn. rewrite recursive_list in Hn. destruct (Many l H Hn D) as [D' HD]. exists (S D'). intros E HE t Ht. rewrite trees_of_alt in Ht.
    specialize (HD E). clear Many H Hn. assert (Hl : Forall (fun g => forall t, trees_of E g t -> height t <= D') l) by (apply HD; intros i t' Hu; apply HE; now apply used_list). clear HD HE.
    revert Ht. generalize 0 as k. induction Hl as [| g l Hg _ IH]; intros k Ht; cbn in Ht; [destruct Ht |]. destruct Ht as [(t' & -> & Ht) | Ht]; [cbn; specialize (Hg t' Ht); lia | eauto].
  - destruct (IHg (fun K => Hn (or_intror K)) D) as [D' HD]. exists D'. intros E HE t Ht. apply trees_fix_unfold in Ht. revert Ht. apply HD. intros [| i] t' Hu; [exfalso; apply Hn; now left |]. apply HE. exact Hu.
  - exists (S D). intros E HE t (t' & -> & Ht). cbn. apply le_n_S. exact (HE i t' eq_refl Ht).
Qed.
