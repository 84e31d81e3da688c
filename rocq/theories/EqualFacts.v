(** * EqualFacts: equality of expressions. *)
From Verif Require Export SpecEqual AutoNibble EraseBeta DistinctFacts.
From Coq Require Import List.
Open Scope list_scope.

Notation eqn := (fun n m => name_eqb n m = true).
Lemma Forall2_app_eq {A} (R : A -> A -> Prop) l1 l2 m1 m2 : length l1 = length m1 -> Forall2 R (l1 ++ l2) (m1 ++ m2) -> Forall2 R l1 m1 /\ Forall2 R l2 m2.
Proof.
  revert m1. induction l1 as [| x l1 IH]; intros [| y m1] E H; try discriminate; cbn [app] in H; [auto |]. inversion H; subst. injection E as E. destruct (IH _ E H5). auto.
Qed.
Lemma F2_length {A} (R : A -> A -> Prop) l m : Forall2 R l m -> length l = length m.
Proof. induction 1; cbn; congruence. Qed.
(** Expressions with the same term bind equally many names. *)
Lemma erase_binders e : forall e', erase e = erase e' -> length (binders e) = length (binders e').
Proof.
  assert (HP : forall (f : nexpr -> Prop) (r r' : list (span * nexpr)), Forall (fun x : span * nexpr => forall e', erase (snd x) = erase e' -> length (binders (snd x)) = length (binders e')) r ->
    map (fun x => erase (snd x)) r = map (fun x => erase (snd x)) r' -> length (flat_map (fun x => binders (snd x)) r) = length (flat_map (fun x => binders (snd x)) r')).
  { intros _. induction r as [| x r IH]; intros [| y r'] H E; try discriminate; [reflexivity |]. injection E as E1 E2. apply Forall_cons_iff in H as [H1 H2]. cbn [flat_map]. rewrite !app_length. f_equal; auto. }
  assert (HL : forall r r' : list nexpr, Forall (fun x => forall e', erase x = erase e' -> length (binders x) = length (binders e')) r ->
    map erase r = map erase r' -> length (flat_map binders r) = length (flat_map binders r')).
  { induction r as [| x r IH]; intros [| y r'] H E; try discriminate; [reflexivity |]. injection E as E1 E2. apply Forall_cons_iff in H as [H1 H2]. cbn [flat_map]. rewrite !app_length. f_equal; auto. }
  induction e using nexpr_ind'; intros e' E; destruct e'; try discriminate E; cbn [erase] in E; try reflexivity; injection E; intros; subst; cbn [binders]; rewrite ?app_length; cbn [length]; rewrite ?app_length; auto using (HP (fun _ => True)).
Qed.

Theorem eqb_exact x : forall y, nexpr_eqb x y = true <-> erase x = erase y /\ Forall2 eqn (binders x) (binders y).
Proof.
  assert (HP : forall r r' : list (span * nexpr), Forall (fun x : span * nexpr => forall y, nexpr_eqb (snd x) y = true <-> erase (snd x) = erase y /\ Forall2 eqn (binders (snd x)) (binders y)) r ->
    ((fix go (l m : list (span * nexpr)) : bool := match l, m with [], [] => true | (_, a) :: l', (_, b) :: m' => nexpr_eqb a b && go l' m' | _, _ => false end) r r' = true
     <-> map (fun x => erase (snd x)) r = map (fun x => erase (snd x)) r' /\ Forall2 eqn (flat_map (fun x => binders (snd x)) r) (flat_map (fun x => binders (snd x)) r'))).
  { induction r as [| [p x1] r IH]; intros [| [q y] r'] H; cbn [map flat_map]; try (split; [discriminate | intros [E _]; discriminate E]); [split; auto |].
    apply Forall_cons_iff in H as [H1 H2]. cbn [snd] in *. rewrite Bool.andb_true_iff, (H1 y), (IH r' H2). split.
    - intros [[E1 F1] [E2 F2]]. split; [congruence | now apply Forall2_app].
    - intros [E F]. injection E as E1 E2. apply Forall2_app_eq in F as [F1 F2]; [tauto | now apply erase_binders]. }
  assert (HL : forall r r' : list nexpr, Forall (fun x => forall y, nexpr_eqb x y = true <-> erase x = erase y /\ Forall2 eqn (binders x) (binders y)) r ->
    ((fix go (l m : list nexpr) : bool := match l, m with [], [] => true | a :: l', b :: m' => nexpr_eqb a b && go l' m' | _, _ => false end) r r' = true
     <-> map erase r = map erase r' /\ Forall2 eqn (flat_map binders r) (flat_map binders r'))).
  { induction r as [| x1 r IH]; intros [| y r'] H; cbn [map flat_map]; try (split; [discriminate | intros [E _]; discriminate E]); [split; auto |].
    apply Forall_cons_iff in H as [H1 H2]. rewrite Bool.andb_true_iff, (H1 y), (IH r' H2). split.
    - intros [[E1 F1] [E2 F2]]. split; [congruence | now apply Forall2_app].
    - intros [E F]. injection E as E1 E2. apply Forall2_app_eq in F as [F1 F2]; [tauto | now apply erase_binders]. }
  assert (HN : forall n n', (fix go l m := match l, m with [], [] => true | a :: l', b :: m' => name_eqb a b && go l' m' | _, _ => false end) n n' = true <-> Forall2 eqn n n').
  { induction n as [| a n IH]; intros [| b n']; try (split; [discriminate | intros F; inversion F]); [split; auto |]. rewrite Bool.andb_true_iff, (IH n'). split; [intros [? ?]; constructor; auto | intros F; inversion F; auto]. }
  induction x using nexpr_ind'; intros y; destruct y; cbn [nexpr_eqb erase binders]; try (split; [discriminate | intros [E _]; discriminate E]).
  - split; auto.
  - rewrite rstr_eqb_eq. split; [intros ->; auto | intros [E _]; now injection E].
  - rewrite Bool.andb_true_iff, (IHx y), (HP r rest H). split.
    + intros [[E1 F1] [E2 F2]]. split; [congruence | now apply Forall2_app].
    + intros [E F]. injection E as E1 E2. apply Forall2_app_eq in F as [F1 F2]; [tauto | now apply erase_binders].
  - rewrite Bool.andb_true_iff, (IHx y), (HP r rest H). split.
    + intros [[E1 F1] [E2 F2]]. split; [congruence | now apply Forall2_app].
    + intros [E F]. injection E as E1 E2. apply Forall2_app_eq in F as [F1 F2]; [tauto | now apply erase_binders].
  - rewrite (IHx y). split; [intros [E F]; split; [congruence | exact F] | intros [E F]; injection E as E; auto].
  - rewrite PeanoNat.Nat.eqb_eq. split; [intros ->; auto | intros [E _]; now injection E].
  - rewrite Bool.andb_true_iff, (IHx y), (HL l args H). split.
    + intros [[E1 F1] [E2 F2]]. split; [congruence | now apply Forall2_app].
    + intros [E F]. injection E as E1 E2. apply Forall2_app_eq in F as [F1 F2]; [tauto | now apply erase_binders].
  - rewrite Bool.andb_true_iff, (IHx y), (HN n args). split.
    + intros [F1 [E F2]]. split; [rewrite E, (F2_length _ _ _ F1); reflexivity | now apply Forall2_app].
    + intros [E F]. injection E as E1 E2. apply Forall2_app_eq in F as [F1 F2]; [tauto | exact E1].
  - rewrite !Bool.andb_true_iff, (IHx1 y1), (IHx2 y2). split.
    + intros [[F0 [E1 F1]] [E2 F2]]. split; [congruence | constructor; [exact F0 | now apply Forall2_app]].
    + intros [E F]. injection E as E1 E2. inversion F as [| ? ? ? ? F0 F']; subst. apply Forall2_app_eq in F' as [F1 F2]; [tauto | now apply erase_binders].
Qed.
Lemma name_eqb_sym n m : name_eqb n m = name_eqb m n.
Proof.
  assert (R : forall x y, rstr_eqb x y = rstr_eqb y x) by (intros x y; apply Bool.eq_iff_eq_true; rewrite !rstr_eqb_eq; split; auto).
  destruct n as [[i | s] k], m as [[j | t] l]; unfold name_eqb; cbn; unfold ident_eqb; rewrite ?(R (id_sym i)), ?(R s); f_equal; try (destruct k, l; reflexivity); f_equal; destruct (id_raw i), (id_raw j); reflexivity.
Qed.
