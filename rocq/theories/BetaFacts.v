(** * BetaFacts: the algebra of renaming and substitution of [SpecBeta]. *)
From Verif Require Import SpecBeta.
From Coq Require Import Lia.

Section LexprInd.
  Variable P : lexpr -> Prop.
  Hypothesis Heps : P LEps.
  Hypothesis Hlit : forall s, P (LLit s).
  Hypothesis Hcat : forall l, Forall P l -> P (LCat l).
  Hypothesis Halt : forall l, Forall P l -> P (LAlt l).
  Hypothesis Hfix : forall i, P i -> P (LFix i).
  Hypothesis Hvar : forall i, P (LVar i).
  Hypothesis Hcall : forall o l, P o -> Forall P l -> P (LCall o l).
  Hypothesis Hlam : forall n i, P i -> P (LLam n i).
  Hypothesis Hlet : forall x y, P x -> P y -> P (LLet x y).
  Fixpoint lexpr_ind' (e : lexpr) : P e :=
    let all := fix go l : Forall P l :=
      match l with [] => Forall_nil _ | x :: l' => Forall_cons _ (lexpr_ind' x) (go l') end in
    match e with
    | LEps => Heps
    | LLit s => Hlit s
    | LCat l => Hcat l (all l)
    | LAlt l => Halt l (all l)
    | LFix i => Hfix i (lexpr_ind' i)
    | LVar i => Hvar i
    | LCall o l => Hcall o l (lexpr_ind' o) (all l)
    | LLam n i => Hlam n i (lexpr_ind' i)
    | LLet x y => Hlet x y (lexpr_ind' x) (lexpr_ind' y)
    end.
End LexprInd.

Lemma map_ext_Forall' {A B} (f g : A -> B) l : Forall (fun x => f x = g x) l -> map f l = map g l.
Proof. induction 1; cbn; congruence. Qed.

(** ** Extensionality *)
Lemma upr_ext n r r' : (forall i, r i = r' i) -> forall i, upr n r i = upr n r' i.
Proof. intros H i. unfold upr. now destruct (Nat.ltb i n); rewrite ?H. Qed.
Lemma ups_ext n s s' : (forall i, s i = s' i) -> forall i, ups n s i = ups n s' i.
Proof. intros H i. unfold ups. now destruct (Nat.ltb i n); rewrite ?H. Qed.

Ltac list_ih H := f_equal; apply map_ext_Forall'; eapply Forall_impl; [| exact H]; cbn; intros.

Lemma lren_ext e : forall r r', (forall i, r i = r' i) -> lren r e = lren r' e.
Proof.
  induction e as [| s | l H | l H | i IH | i | o l IH H | n i IH | x y IH IH2] using lexpr_ind'; intros r r' E; cbn;
    auto using upr_ext.
  - list_ih H. auto.
  - list_ih H. auto.
  - f_equal; auto.
  - f_equal; auto.
    apply map_ext_Forall'; eapply Forall_impl; [| exact H]; cbn; auto.
  - f_equal. auto using upr_ext.
  - f_equal; auto using upr_ext.
Qed.
Lemma lsub_ext e : forall s s', (forall i, s i = s' i) -> lsub s e = lsub s' e.
Proof.
  induction e as [| s | l H | l H | i IH | i | o l IH H | n i IH | x y IH IH2] using lexpr_ind'; intros r r' E; cbn;
    auto using ups_ext.
  - list_ih H. auto.
  - list_ih H. auto.
  - f_equal; auto.
  - f_equal; auto.
    apply map_ext_Forall'; eapply Forall_impl; [| exact H]; cbn; auto.
  - f_equal. auto using ups_ext.
  - f_equal; auto using ups_ext.
Qed.

Ltac ltb_cases := repeat match goal with
  | |- context [Nat.ltb ?a ?b] => destruct (Nat.ltb_spec a b)
  end.

(** ** Composition *)
Lemma lren_lren e : forall r1 r2, lren r2 (lren r1 e) = lren (fun i => r2 (r1 i)) e.
Proof.
  assert (U : forall n r1 r2 i, upr n r2 (upr n r1 i) = upr n (fun i => r2 (r1 i)) i).
  { intros n r1 r2 i. unfold upr. ltb_cases; try lia. f_equal. f_equal. f_equal. lia. }
  induction e as [| s | l H | l H | i IH | i | o l IH H | n i IH | x y IH IH2] using lexpr_ind'; intros r1 r2; cbn;
    auto; rewrite ?map_map.
  - list_ih H. auto.
  - list_ih H. auto.
  - f_equal; auto.
  - f_equal; auto. apply map_ext_Forall'; eapply Forall_impl; [| exact H]; cbn; auto.
  - f_equal. rewrite IH. apply lren_ext. apply U.
  - f_equal; auto. rewrite IH2. apply lren_ext. apply U.
Qed.

Lemma lren_lsub_var e : forall r, lren r e = lsub (fun i => LVar (r i)) e.
Proof.
  assert (U : forall n r i, LVar (upr n r i) = ups n (fun i => LVar (r i)) i).
  { intros n r i. unfold upr, ups. ltb_cases; reflexivity. }
  induction e as [| s | l H | l H | i IH | i | o l IH H | n i IH | x y IH IH2] using lexpr_ind'; intros r; cbn; auto.
  - list_ih H. auto.
  - list_ih H. auto.
  - f_equal; auto.
  - f_equal; auto. apply map_ext_Forall'; eapply Forall_impl; [| exact H]; cbn; auto.
  - f_equal. rewrite IH. apply lsub_ext, U.
  - f_equal; auto. rewrite IH2. apply lsub_ext, U.
Qed.

Lemma lsub_lren e : forall r s, lsub s (lren r e) = lsub (fun i => s (r i)) e.
Proof.
  assert (U : forall n r s i, ups n s (upr n r i) = ups n (fun i => s (r i)) i).
  { intros n r s i. unfold upr, ups. ltb_cases; try lia; auto. do 2 f_equal. lia. }
  induction e as [| s | l H | l H | i IH | i | o l IH H | n i IH | x y IH IH2] using lexpr_ind'; intros r1 r2; cbn;
    auto; rewrite ?map_map.
  - list_ih H. auto.
  - list_ih H. auto.
  - f_equal; auto.
  - f_equal; auto. apply map_ext_Forall'; eapply Forall_impl; [| exact H]; cbn; auto.
  - f_equal. rewrite IH. apply lsub_ext. apply U.
  - f_equal; auto. rewrite IH2. apply lsub_ext. apply U.
Qed.

Lemma lren_lsub e : forall s r, lren r (lsub s e) = lsub (fun i => lren r (s i)) e.
Proof.
  assert (U : forall n s r i, lren (upr n r) (ups n s i) = ups n (fun i => lren r (s i)) i).
  { intros n s r i. unfold ups. ltb_cases.
    - cbn. f_equal. unfold upr. ltb_cases; [reflexivity | lia].
    - rewrite !lren_lren. apply lren_ext. intros j. unfold upr. ltb_cases; try lia. do 2 f_equal. lia. }
  induction e as [| s | l H | l H | i IH | i | o l IH H | n i IH | x y IH IH2] using lexpr_ind'; intros r1 r2; cbn;
    auto; rewrite ?map_map.
  - list_ih H. auto.
  - list_ih H. auto.
  - f_equal; auto.
  - f_equal; auto. apply map_ext_Forall'; eapply Forall_impl; [| exact H]; cbn; auto.
  - f_equal. rewrite IH. apply lsub_ext. apply U.
  - f_equal; auto. rewrite IH2. apply lsub_ext. apply U.
Qed.

Lemma ups_comp n s t i : lsub (ups n t) (ups n s i) = ups n (fun i => lsub t (s i)) i.
Proof.
  unfold ups at 2 3. ltb_cases.
  - cbn. unfold ups. ltb_cases; [reflexivity | lia].
  - rewrite lsub_lren, lren_lsub. apply lsub_ext. intros j. unfold ups. ltb_cases; try lia. do 2 f_equal. lia.
Qed.
Lemma lsub_lsub e : forall s t, lsub t (lsub s e) = lsub (fun i => lsub t (s i)) e.
Proof.
  induction e as [| s | l H | l H | i IH | i | o l IH H | n i IH | x y IH IH2] using lexpr_ind'; intros r1 r2; cbn;
    auto; rewrite ?map_map.
  - list_ih H. auto.
  - list_ih H. auto.
  - f_equal; auto.
  - f_equal; auto. apply map_ext_Forall'; eapply Forall_impl; [| exact H]; cbn; auto.
  - f_equal. rewrite IH. apply lsub_ext. apply ups_comp.
  - f_equal; auto. rewrite IH2. apply lsub_ext. apply ups_comp.
Qed.

Lemma ups_var n i : ups n LVar i = LVar i.
Proof. unfold ups. ltb_cases; cbn; auto. f_equal. lia. Qed.
Lemma lsub_id e : forall s, (forall i, s i = LVar i) -> lsub s e = e.
Proof.
  assert (U : forall n s, (forall i, s i = LVar i) -> forall i, ups n s i = LVar i).
  { intros n s H i. rewrite <- (ups_var n i). now apply ups_ext. }
  assert (ML : forall s (l : list lexpr), Forall (fun x => lsub s x = x) l -> map (lsub s) l = l).
  { intros s l. induction 1; cbn; congruence. }
  induction e as [| s | l H | l H | i IH | i | o l IH H | n i IH | x y IH IH2] using lexpr_ind'; intros s0 E; cbn; auto.
  - f_equal. apply ML. eapply Forall_impl; [| exact H]; cbn; auto.
  - f_equal. apply ML. eapply Forall_impl; [| exact H]; cbn; auto.
  - f_equal; auto.
  - f_equal; auto. apply ML. eapply Forall_impl; [| exact H]; cbn; auto.
  - f_equal; auto.
  - f_equal; auto.
Qed.
Lemma lren_id e r : (forall i, r i = i) -> lren r e = e.
Proof. intros H. rewrite lren_lsub_var. apply lsub_id. intros i. now rewrite H. Qed.

(** ** Instantiation *)
Lemma inst_out args i : inst args (length args + i) = LVar i.
Proof.
  unfold inst. replace (nth_error (rev args) (length args + i)) with (@None lexpr).
  - f_equal. lia.
  - symmetry. apply nth_error_None. rewrite rev_length. lia.
Qed.
Lemma inst_shift args e : lsub (inst args) (lren (Nat.add (length args)) e) = e.
Proof. rewrite lsub_lren. apply lsub_id. intros i. apply inst_out. Qed.

(** Substitution commutes with instantiation. *)
Lemma inst_lsub args s e : lsub s (lsub (inst args) e) = lsub (inst (map (lsub s) args)) (lsub (ups (length args) s) e).
Proof.
  rewrite !lsub_lsub. apply lsub_ext. intros i. unfold ups. destruct (Nat.ltb_spec i (length args)).
  - cbn. unfold inst. rewrite <- map_rev, nth_error_map, map_length.
    destruct (nth_error (rev args) i) eqn:E; cbn; [reflexivity |].
    apply nth_error_None in E. rewrite rev_length in E. lia.
  - replace i with (length args + (i - length args)) at 1 by lia. rewrite inst_out. cbn.
    rewrite <- (map_length (lsub s) args) at 2. now rewrite inst_shift.
Qed.
Lemma inst_lren args r e : lren r (lsub (inst args) e) = lsub (inst (map (lren r) args)) (lren (upr (length args) r) e).
Proof.
  rewrite (lren_lsub_var (lsub (inst args) e)), inst_lsub, (lren_lsub_var e).
  rewrite (map_ext _ (lsub (fun i => LVar (r i))) (fun x => lren_lsub_var x r)).
  f_equal. apply lsub_ext. intros i. unfold upr, ups. ltb_cases; reflexivity.
Qed.
Lemma inst1_at x i : inst [x] i = at_var 0 x i.
Proof. destruct i as [| [| i]]; reflexivity. Qed.

(** The parameters one at a time, last first, each argument moved over the
    parameters that remain. *)
Lemma inst_snoc args a e :
  lsub (inst (args ++ [a])) e = lsub (inst args) (lsub (at_var 0 (lren (Nat.add (length args)) a)) e).
Proof.
  rewrite lsub_lsub. apply lsub_ext. intros [| i]; cbn.
  - rewrite inst_shift. unfold inst. now rewrite rev_unit.
  - unfold inst. rewrite rev_unit, app_length. cbn [nth_error length]. rewrite Nat.sub_0_r.
    destruct (nth_error (rev args) i); [reflexivity |]. f_equal. lia.
Qed.
