(** * PropCount: how many types are generated, and how large a grammar can get.

    Vocabulary: [compiles] (PropGen), [part_of], [finite_gram], [different_parts],
    [finite_or_epsilon], [has_epsilon], [epsilon_parts], [different_plain_parts]
    (SpecCount), [size] (SpecCost: the expressions written), [visits] (InferCost:
    the expressions type inference looks at), [generate] (the generator). *)
From Coq Require Import String.
From Verif Require Import ReduceMore ReduceFacts StepFacts BetaFacts SimpleFacts DoublingFacts CountEps PropDistinct PropGen PropReduce.
From Coq Require Import List Lia.
Open Scope list_scope.

(** C109.  A grammar of literals, sequences and alternations gets exactly as many
    types as it has different parts. *)
Theorem C109_count : forall cs e r tab root g D, compiles cs e r tab root -> gram_of e = Some g -> finite_gram g -> different_parts g D ->
  length tab = length D.
Proof. exact count_types. Qed.
Print Assumptions C109_count.
Example C109_ex : exists r tab root g D, compiles cs0 ex_twice r tab root /\ gram_of ex_twice = Some g /\ finite_gram g /\ different_parts g D /\ length D = 5.
Proof.
  eexists _, _, _, _, [GCat [GLit (lit "x"); GAlt [GLit (lit "p"); GLit (lit "q")]; GAlt [GLit (lit "p"); GLit (lit "q")]]; GAlt [GLit (lit "p"); GLit (lit "q")]; GLit (lit "x"); GLit (lit "p"); GLit (lit "q")].
  split; [split; [vm_compute; reflexivity | eexists; split; [vm_compute; reflexivity | reflexivity]] |].
  split; [reflexivity |].
  assert (K : forall x, part_of x (GCat [GLit (lit "x"); GAlt [GLit (lit "p"); GLit (lit "q")]; GAlt [GLit (lit "p"); GLit (lit "q")]]) ->
    In x [GCat [GLit (lit "x"); GAlt [GLit (lit "p"); GLit (lit "q")]; GAlt [GLit (lit "p"); GLit (lit "q")]]; GAlt [GLit (lit "p"); GLit (lit "q")]; GLit (lit "x"); GLit (lit "p"); GLit (lit "q")]).
  { assert (A : forall x, part_of x (GAlt [GLit (lit "p"); GLit (lit "q")]) -> In x [GAlt [GLit (lit "p"); GLit (lit "q")]; GLit (lit "p"); GLit (lit "q")]).
    { intros x H. inversion H as [| | gs g Hi Hp |]; subst; [now left |]. destruct Hi as [<- | [<- | []]]; inversion Hp; subst; cbn; auto. }
    intros x H. inversion H as [| gs g Hi Hp | |]; subst; [now left |]. destruct Hi as [<- | [<- | [<- | []]]].
    - inversion Hp; subst. cbn. auto.
    - apply A in Hp. cbn in Hp |- *. intuition.
    - apply A in Hp. cbn in Hp |- *. intuition. }
  split; [intros x H; apply K in H; cbn in H; destruct H as [<- | [<- | [<- | [<- | [<- | []]]]]]; exact Logic.I |].
  split; [| reflexivity]. split.
  - repeat constructor; cbn; intuition discriminate.
  - intros x. split; [| apply K]. cbn [In]. intros [<- | [<- | [<- | [<- | [<- | []]]]]];
      [constructor | eapply part_cat; [right; left; reflexivity | constructor] | eapply part_cat; [left; reflexivity | constructor]
      | eapply part_cat; [right; left; reflexivity | eapply part_alt; [left; reflexivity | constructor]] | eapply part_cat; [right; left; reflexivity | eapply part_alt; [right; left; reflexivity | constructor]]].
Qed.

(** With epsilon allowed: the parts without epsilon get one type each however
    often they are written, and a part that contains an epsilon gets one for every
    place where it is written. *)
Theorem C109_count_epsilon : forall cs e r tab root g D, compiles cs e r tab root -> gram_of e = Some g -> finite_or_epsilon g -> different_plain_parts g D ->
  length tab = length D + epsilon_parts g.
Proof. exact count_types_epsilon. Qed.
Print Assumptions C109_count_epsilon.
(** In ["x" . (_ | "p") . ("x" . (_ | "p"))] the literals are shared and the two
    optional parts, the epsilons and the sequences are not. *)
Example C109_epsilon_ex : exists r tab root g, compiles cs0 ex_eps_twice r tab root /\ gram_of ex_eps_twice = Some g /\ finite_or_epsilon g
  /\ different_plain_parts g [GLit (lit "x"); GLit (lit "p")] /\ epsilon_parts g = 7 /\ length tab = 9.
Proof.
  set (o := GAlt [GEps; GLit (lit "p")]). set (s := GCat [GLit (lit "x"); o]).
  eexists _, _, _, (GCat [s; s]).
  split; [split; [vm_compute; reflexivity | eexists; split; [vm_compute; reflexivity | reflexivity]] |].
  split; [reflexivity |].
  assert (K : forall x, part_of x (GCat [s; s]) -> In x [GCat [s; s]; s; GLit (lit "x"); o; GEps; GLit (lit "p")]).
  { assert (A : forall x, part_of x o -> In x [o; GEps; GLit (lit "p")]).
    { intros x H. inversion H as [| | gs g Hi Hp |]; subst; [now left |]. destruct Hi as [<- | [<- | []]]; inversion Hp; subst; cbn; auto. }
    assert (B : forall x, part_of x s -> In x [s; GLit (lit "x"); o; GEps; GLit (lit "p")]).
    { intros x H. inversion H as [| gs g Hi Hp | |]; subst; [now left |]. destruct Hi as [<- | [<- | []]].
      - inversion Hp; subst. cbn. auto.
      - apply A in Hp. right. right. exact Hp. }
    intros x H. inversion H as [| gs g Hi Hp | |]; subst; [now left |]. right. destruct Hi as [<- | [<- | []]]; now apply B. }
  split; [intros x H; apply K in H; destruct H as [<- | [<- | [<- | [<- | [<- | [<- | []]]]]]]; exact Logic.I |].
  split; [| split; reflexivity]. split.
  - repeat constructor; cbn; intuition discriminate.
  - intros x. split.
    + intros [<- | [<- | []]]; (split; [| reflexivity]); (eapply part_cat; [left; reflexivity |]).
      * eapply part_cat; [left; reflexivity | constructor].
      * eapply part_cat; [right; left; reflexivity |]. eapply part_alt; [right; left; reflexivity | constructor].
    + intros [H E]. apply K in H. destruct H as [<- | [<- | [<- | [<- | [<- | [<- | []]]]]]]; try discriminate E; cbn; auto.
Qed.

(** The program
      let a = "x"; let a = a . a; ... let a = a . a; match a;
    with [n] doublings. *)
Definition again_name : name := nvar "a".
Fixpoint doublings (n : nat) : nexpr :=
  match n with
  | O => V 0
  | S m => ELet a0 again_name (cat2 (V 0) (V 0)) (doublings m)
  end.
Definition doubling_program (n : nat) : nexpr := ELet a0 again_name (L "x") (doublings n).

Lemma doublings_sub n : forall s, s 0 = LVar 0 -> lsub s (erase (doublings n)) = erase (doublings n).
Proof.
  induction n as [| n IH]; intros s H; cbn [doublings V erase lsub cat2 map snd]; [exact H |]. rewrite H, IH; reflexivity.
Qed.
Lemma doublings_evals n : forall k, evals (lsub (inst [ldoubled k]) (erase (doublings n))) (ldoubled (n + k)).
Proof.
  induction n as [| n IH]; intros k; cbn [doublings V erase lsub cat2 map snd].
  - cbn. apply ldoubled_value.
  - rewrite doublings_sub by reflexivity. apply ev_let. change (LCat [inst [ldoubled k] 0; inst [ldoubled k] 0]) with (ldoubled (S k)).
    replace (S n + k) with (n + S k) by lia. apply IH.
Qed.

(** Such a program is small, its grammar and the work of type inference are
    exponential, and the code generated is small again. *)
Theorem C109_doubling : forall n, let p := doubling_program n in
  size p = 4 * n + 3
  /\ (exists k v, reduce k p = Ok v)
  /\ forall k v, reduce k p = Ok v ->
       2 ^ n <= size v
       /\ (forall fuel, 2 ^ n <= visits fuel (e_name v) tctx_default v)
       /\ exists r, typecheck v = Ok r
          /\ (forall cs, (forall s, camel cs s <> None /\ snake cs s <> None) -> exists b root, generate cs r = Some (b, root))
          /\ (forall cs b root, generate cs r = Some (b, root) -> length (data b) = S n).
Proof.
  intros n p. assert (He : evals (erase p) (ldoubled n)).
  { pose proof (doublings_evals n 0) as H. rewrite Nat.add_0_r in H. exact (ev_let (ldoubled 0) (erase (doublings n)) (ldoubled n) H). }
  split; [| split].
  - unfold p, doubling_program. cbn [size L]. enough (H : size (doublings n) = 4 * n + 1) by lia. clear. induction n as [| n IH]; [reflexivity |]. cbn [doublings size cat2 V]. rewrite IH. lia.
  - destruct (proj2 (C40_exact p (ldoubled n)) He) as (k & v & H & _). eauto.
  - intros k v H. assert (Hg : gram_of v = Some (doubled n)).
    { rewrite gram_of_lgram. replace (erase v) with (ldoubled n); [apply ldoubled_gram |]. pose proof (proj1 (C40_exact p (erase v)) (ex_intro _ k (ex_intro _ v (conj H eq_refl)))) as Hv. symmetry. exact (proj1 evals_det _ _ He _ Hv). }
    split; [now apply doubled_size |]. split; [intros fuel; now apply doubled_visits |].
    destruct (doubled_infer n (infer_fuel v) (e_name v) tctx_default v Hg) as (r & E & _). fold (typecheck v) in E.
    exists r. split; [exact E |]. split.
    + intros cs Hc. destruct (generate_spec cs r (typecheck_wt _ _ E)) as (b & root & m & Hgen & _); [apply Forall_forall; intros nm _; apply Hc |]. eauto.
    + intros cs b root Hgen. rewrite (count_types cs v r (data b) root (doubled n) (map doubled (seq 0 (S n)))); [now rewrite map_length, seq_length | | exact Hg | apply doubled_finite | apply doubled_different].
      split; [exact E | eauto].
Qed.
Print Assumptions C109_doubling.
(** Six doublings: 27 expressions written, 127 in the grammar, 7 types. *)
Example C109_doubling_ex : exists v r b root, reduce 100 (doubling_program 6) = Ok v /\ size v = 127 /\ visits 3 (e_name v) tctx_default v = 127
  /\ typecheck v = Ok r /\ generate cs0 r = Some (b, root) /\ length (data b) = 7.
Proof.
  destruct (reduce 100 (doubling_program 6)) as [v | | |] eqn:E; [| vm_compute in E; discriminate ..]. vm_compute in E. injection E as <-.
  eexists _, _, _, _. split; [reflexivity |]. split; [vm_compute; reflexivity |]. split; [vm_compute; reflexivity |]. split; [vm_compute; reflexivity |].
  split; [vm_compute; reflexivity | reflexivity].
Qed.
