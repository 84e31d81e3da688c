(** * DoublingFacts: a program whose grammar is exponentially larger. *)
From Coq Require Import String.
From Verif Require Export CountFacts InferCost SpecCost EraseBeta Examples.
From Verif Require Import PropGen PropReduce.
From Coq Require Import List Lia.
Open Scope list_scope.

(** [x] [n] times doubled. *)
Fixpoint doubled (n : nat) : gram := match n with O => GLit (lit "x") | S m => GCat [doubled m; doubled m] end.
Fixpoint ldoubled (n : nat) : lexpr := match n with O => LLit (lit "x") | S m => LCat [ldoubled m; ldoubled m] end.

(** ** Its parts *)
Lemma doubled_parts n x : part_of x (doubled n) <-> exists k, k <= n /\ x = doubled k.
Proof.
  induction n as [| n IH]; cbn [doubled].
  - split; [intros H; inversion H; subst; exists 0; auto | intros (k & Hk & ->); assert (k = 0) by lia; subst; constructor].
  - split.
    + intros H. inversion H as [| gs g Hi Hp | |]; subst; [exists (S n); auto |]. assert (Hg : part_of x (doubled n)) by (destruct Hi as [<- | [<- | []]]; exact Hp).
      apply IH in Hg as (k & Hk & ->). exists k. split; [lia | reflexivity].
    + intros (k & Hk & ->). destruct (Nat.eq_dec k (S n)) as [-> | Hn]; [constructor |]. eapply part_cat; [now left |]. apply IH. exists k. split; [lia | reflexivity].
Qed.
Lemma doubled_inj k k' : doubled k = doubled k' -> k = k'.
Proof. revert k'. induction k as [| k IH]; intros [| k'] H; cbn [doubled] in H; try discriminate; [reflexivity |]. f_equal. apply IH. congruence. Qed.
Lemma doubled_finite n : finite_gram (doubled n).
Proof. intros x H. apply doubled_parts in H as (k & _ & ->). destruct k; exact Logic.I. Qed.
Lemma doubled_different n : different_parts (doubled n) (map doubled (seq 0 (S n))).
Proof.
  split.
  - generalize (seq_NoDup (S n) 0). generalize (seq 0 (S n)). induction 1 as [| k l Hk _ IH]; cbn [map]; constructor; auto.
    rewrite in_map_iff. intros (k' & E & Hi). apply doubled_inj in E. now subst.
  - intros x. rewrite doubled_parts, in_map_iff. split; [intros (k & <- & Hi); apply in_seq in Hi; exists k; split; [lia | reflexivity] | intros (k & Hk & ->); exists k; split; [reflexivity | apply in_seq; lia]].
Qed.

(** ** Evaluation *)
Lemma ldoubled_sub n : forall s, lsub s (ldoubled n) = ldoubled n.
Proof. induction n as [| n IH]; intros s; cbn [ldoubled lsub map]; [reflexivity | now rewrite !IH]. Qed.
Lemma ldoubled_value n : evals (ldoubled n) (ldoubled n).
Proof. induction n as [| n IH]; cbn [ldoubled]; constructor. constructor; [exact IH |]. constructor; [exact IH | constructor]. Qed.
Lemma ldoubled_gram n : lgram (ldoubled n) = Some (doubled n).
Proof. induction n as [| n IH]; cbn; [reflexivity |]. now rewrite IH. Qed.

(** ** Type inference *)
Definition ty_x : ty := Ty false [120%N] [].
Lemma doubled_shape n e : gram_of e = Some (doubled (S n)) -> exists a f p y, e = ECat a f [(p, y)] /\ gram_of f = Some (doubled n) /\ gram_of y = Some (doubled n).
Proof.
  destruct e as [a | a s | a f l | a f l | a i | a i | a o l | a ns i | a m x y]; cbn [doubled]; intros H; try (cbn in H; discriminate).
  - cbn in H. destruct (gram_of f) eqn:Ef; [| discriminate]. destruct l as [| [p y] [| [q z] l]]; cbn in H; [discriminate | |].
    + destruct (gram_of y) eqn:Ey; [| discriminate]. injection H as -> ->. exists a, f, p, y. auto.
    + destruct (gram_of y); [| discriminate]. destruct (gram_of z); [| discriminate]. destruct (all_some _); discriminate.
  - cbn in H. destruct (gram_of f); [| discriminate]. destruct (all_some _); discriminate.
  - cbn in H. destruct i; try discriminate. destruct (gram_of i); discriminate.
Qed.
Lemma doubled_infer n : forall fuel nm c e, gram_of e = Some (doubled n) -> exists r, infer fuel nm c e = Ok r /\ get_type r = ty_x.
Proof.
  induction n as [| n IH]; intros fuel nm c e H.
  - destruct e as [a | a s | a f l | a f l | a i | a i | a o l | a ns i | a m x y]; cbn in H; try discriminate.
    + injection H as ->. eexists. split; [reflexivity | reflexivity].
    + destruct (gram_of f); [| discriminate]. destruct (all_some _); discriminate.
    + destruct (gram_of f); [| discriminate]. destruct (all_some _); discriminate.
    + destruct i; try discriminate. destruct (gram_of i); discriminate.
  - apply doubled_shape in H as (a & f & p & y & -> & Hf & Hy).
    destruct (IH fuel (e_name f) c f Hf) as (rf & Ef & Tf). destruct (IH fuel (e_name y) (push_unguard c) y Hy) as (ry & Ey & Ty).
    cbn [infer]. rewrite Ef, Tf. cbn [nullable ty_x]. rewrite Ey, Ty. cbn. eexists. split; reflexivity.
Qed.
Lemma doubled_visits n : forall fuel nm c e, gram_of e = Some (doubled n) -> 2 ^ n <= visits fuel nm c e.
Proof.
  induction n as [| n IH]; intros fuel nm c e H.
  - destruct e as [a | a s | a f l | a f l | a i | a i | a o l | a ns i | a m x y]; cbn in H; try discriminate.
    + cbn. lia.
    + destruct (gram_of f); [| discriminate]. destruct (all_some _); discriminate.
    + destruct (gram_of f); [| discriminate]. destruct (all_some _); discriminate.
    + destruct i; try discriminate. destruct (gram_of i); discriminate.
  - apply doubled_shape in H as (a & f & p & y & -> & Hf & Hy).
    destruct (doubled_infer n fuel (e_name f) c f Hf) as (rf & Ef & Tf).
    cbn [visits]. rewrite Ef, Tf. cbn [nullable ty_x seq_visits]. pose proof (IH fuel (e_name f) c f Hf). pose proof (IH fuel (e_name y) (push_unguard c) y Hy). cbn [Nat.pow]. lia.
Qed.
Lemma doubled_size n : forall e, gram_of e = Some (doubled n) -> 2 ^ n <= size e.
Proof.
  induction n as [| n IH]; intros e H; [destruct e; cbn; lia |]. apply doubled_shape in H as (a & f & p & y & -> & Hf & Hy). pose proof (IH f Hf). pose proof (IH y Hy). cbn [size Nat.pow]. lia.
Qed.
