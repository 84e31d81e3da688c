(** * CountFacts: how many types are generated. *)
From Verif Require Export SpecCount DistinctFacts ShareFacts InferMore.
From Verif Require Import PropGen.
From Coq Require Import List Lia.
Open Scope list_scope.

(** What a type stands for, read off the table. *)
Inductive den (tab : table) : nat -> gram -> Prop :=
| den_lit id s c : def_of tab id = Some (DLit s c) -> den tab id (GLit s)
| den_cat id n p ids gs : def_of tab id = Some (DCat n p ids) -> dens tab ids gs -> den tab id (GCat gs)
| den_alt id p ids f n a c gs : def_of tab id = Some (DAlt p ids f n a c) -> dens tab ids gs -> den tab id (GAlt gs)
with dens (tab : table) : list nat -> list gram -> Prop :=
| dens_nil : dens tab [] []
| dens_cons i is g gs : den tab i g -> dens tab is gs -> dens tab (i :: is) (g :: gs).
Scheme den_mind := Induction for den Sort Prop
with dens_mind := Induction for dens Sort Prop.
Combined Scheme den_mutind from den_mind, dens_mind.

(** At most one. *)
Lemma den_fun tab : (forall i g, den tab i g -> forall g', den tab i g' -> g = g') /\ (forall is gs, dens tab is gs -> forall gs', dens tab is gs' -> gs = gs').
Proof.
  apply den_mutind.
  - intros id s c Hd g' H. inversion H; subst; congruence.
  - intros id n p ids gs Hd _ IH g' H. inversion H; subst; try congruence. f_equal. apply IH. congruence.
  - intros id p ids f n a c gs Hd _ IH g' H. inversion H; subst; try congruence. f_equal. apply IH. congruence.
  - intros gs' H. now inversion H.
  - intros i is g gs _ IH1 _ IH2 gs' H. inversion H; subst. f_equal; auto.
Qed.
(** For one only. *)
Lemma den_inj tab : (forall i j x y, def_of tab i = Some x -> def_of tab j = Some y -> same_definition x y -> i = j) ->
  (forall i g, den tab i g -> forall j, den tab j g -> i = j) /\ (forall is gs, dens tab is gs -> forall js, dens tab js gs -> is = js).
Proof.
  intros U. apply den_mutind.
  - intros id s c Hd j H. inversion H; subst. eapply U; eauto. constructor.
  - intros id n p ids gs Hd _ IH j H. inversion H as [| j' n' p' ids' gs' Hd' Hs |]; subst. apply IH in Hs. subst ids'. eapply U; eauto. constructor.
  - intros id p ids f n a c gs Hd _ IH j H. inversion H as [| | j' p' ids' f' n' a' c' gs' Hd' Hs]; subst. apply IH in Hs. subst ids'.
    eapply U; [exact Hd | exact Hd' | constructor].
  - intros js H. now inversion H.
  - intros i is g gs _ IH1 _ IH2 js H. inversion H; subst. f_equal; auto.
Qed.

(** A table that represents a finite expression. *)
Lemma plain_cat gs g : finite_gram (GCat gs) -> In g gs -> finite_gram g.
Proof. intros P Hi x Hx. apply P. now apply part_cat with g. Qed.
Lemma plain_alt gs g : finite_gram (GAlt gs) -> In g gs -> finite_gram g.
Proof. intros P Hi x Hx. apply P. now apply part_alt with g. Qed.
Lemma repr_dens tab l : Forall (fun e => forall ctx id, repr tab ctx id e -> finite_gram (gram_of_t e) -> den tab id (gram_of_t e)) l ->
  forall ctx ids, Forall2 (repr tab ctx) ids l -> (forall e, In e l -> finite_gram (gram_of_t e)) -> dens tab ids (map gram_of_t l).
Proof.
  induction 1 as [| e l He _ IH]; intros ctx ids F P; inversion F; subst; cbn; constructor.
  - eapply He; [eassumption | apply P; now left].
  - eapply IH; [eassumption | intros x0 Hx; apply P; now right].
Qed.
Lemma repr_den tab e : forall ctx id, repr tab ctx id e -> finite_gram (gram_of_t e) -> den tab id (gram_of_t e).
Proof.
  induction e using texpr_ind'; intros ctx id R P; inversion R; subst; cbn [gram_of_t] in *; try (now destruct (P _ (part_self _))).
  - econstructor; eassumption.
  - econstructor; [eassumption |]. eapply repr_dens; [eassumption | eassumption |]. intros x Hx. eapply plain_cat; [exact P | now apply in_map].
  - econstructor; [eassumption |]. eapply repr_dens; [eassumption | eassumption |]. intros x Hx. eapply plain_alt; [exact P | now apply in_map].
Qed.

(** What the types mentioned stand for. *)
Lemma dens_left tab is gs i : dens tab is gs -> In i is -> exists g, In g gs /\ den tab i g.
Proof. induction 1 as [| j js g gs H _ IH]; intros []; [subst; eexists; split; [now left | assumption] |]. destruct IH as (g' & ? & ?); auto. exists g'. split; [now right | assumption]. Qed.
Lemma dens_right tab is gs g : dens tab is gs -> In g gs -> exists i, In i is /\ den tab i g.
Proof. induction 1 as [| j js h gs H _ IH]; intros []; [subst; eexists; split; [now left | assumption] |]. destruct IH as (i' & ? & ?); auto. exists i'. split; [now right | assumption]. Qed.
Lemma mentioned_den tab i j : mentioned tab i j -> forall g, den tab i g -> exists x, part_of x g /\ den tab j x.
Proof.
  induction 1 as [i | i j k Hm _ IH]; intros g H; [exists g; split; [constructor | exact H] |]. unfold mentions in Hm. destruct H as [id s c Hd | id n p ids gs Hd Hs | id p ids f n a c gs Hd Hs]; rewrite Hd in Hm.
  - destruct Hm.
  - destruct (dens_left _ _ _ _ Hs Hm) as (g & Hi & Hg). destruct (IH g Hg) as (x & Hp & Hx). exists x. split; [now apply part_cat with g | exact Hx].
  - destruct (dens_left _ _ _ _ Hs Hm) as (g & Hi & Hg). destruct (IH g Hg) as (x & Hp & Hx). exists x. split; [now apply part_alt with g | exact Hx].
Qed.
Lemma part_den tab x g : part_of x g -> forall i, den tab i g -> exists j, den tab j x.
Proof.
  induction 1 as [| gs g Hi _ IH | gs g Hi _ IH | g _ IH]; intros i H; [eauto | ..]; inversion H; subst; (edestruct dens_right as (j & _ & Hj); [eassumption | exact Hi | eauto]).
Qed.
Lemma den_lt tab i g : den tab i g -> i < length tab.
Proof. intros H. assert (K : def_of tab i <> None) by (destruct H; congruence). unfold def_of in K. apply nth_error_Some. now destruct (nth_error tab i). Qed.

(** Two lists matched one to one. *)
Lemma matched {A B} (R : A -> B -> Prop) (l : list A) (m : list B) : NoDup l -> NoDup m ->
  (forall a, In a l -> exists b, In b m /\ R a b) -> (forall a a' b, R a b -> R a' b -> a = a') -> length l <= length m.
Proof.
  revert m. induction l as [| a l IH]; intros m Nl Nm F J; [cbn; lia |]. inversion Nl as [| x y Ha Nl']; subst.
  destruct (F a (or_introl eq_refl)) as (b & Hb & Hr). apply in_split in Hb as (m1 & m2 & ->).
  assert (K : length l <= length (m1 ++ m2)).
  { apply IH; auto; [eapply NoDup_remove_1; exact Nm |]. intros a' Ha'. destruct (F a' (or_intror Ha')) as (b' & Hb' & Hr'). exists b'. split; [| exact Hr'].
    apply in_app_iff in Hb' as [? | [<- | ?]]; [apply in_app_iff; now left | | apply in_app_iff; now right]. exfalso. apply Ha. now rewrite (J a a' b Hr Hr'). }
  rewrite app_length in *. cbn. lia.
Qed.

Lemma plain_inside r B x : inside r B x -> finite_gram (gram_of_t r) -> part_of (gram_of_t x) (gram_of_t r).
Proof.
  intros H P. assert (G : forall y z, part_of y z -> forall w, part_of w y -> part_of w z).
  { induction 1; intros w Hw; auto; [eapply part_cat | eapply part_alt | apply part_fix]; eauto. }
  induction H as [| B a l t x _ IH Hi | B a l t x _ IH Hi | B a i _ IH].
  - constructor.
  - apply (G _ _ IH). cbn. eapply part_cat; [apply in_map, Hi | constructor].
  - apply (G _ _ IH). cbn. eapply part_alt; [apply in_map, Hi | constructor].
  - apply (G _ _ IH). cbn. apply part_fix. constructor.
Qed.
Lemma plain_sharing r : finite_gram (gram_of_t r) -> sharing_ok r.
Proof. intros P B a i B' a' i' H _ _ n _. apply plain_inside in H; [| exact P]. destruct (P _ H). Qed.

Theorem count_types cs e r tab root g D : compiles cs e r tab root -> gram_of e = Some g -> finite_gram g -> different_parts g D ->
  length tab = length D.
Proof.
  intros [E (b & Hg & ->)] Hgr P [ND HD]. destruct (typecheck_typed e r E) as (g' & s & Hg' & Hr & _). rewrite Hgr in Hg'. injection Hg' as <-. rewrite <- Hr in P, HD.
  pose proof (proj1 (generate_distinct cs r b root Hg)) as U. destruct (C31_emitted cs e r b root E Hg) as (order & nm & _ & _ & _ & H1 & H2).
  pose proof (gen_total _ _ _ _ Hg) as Ht. fold (generate (total cs) r) in Ht. apply (generate_repr (total cs) r (plain_sharing r P)) in Ht; [| apply (typecheck_wt _ _ E) | apply total_names].
  apply repr_den in Ht; [| exact P]. set (T := data b) in *.
  rewrite <- (seq_length (length T) 0). apply Nat.le_antisymm.
  - apply (matched (den T)); [apply seq_NoDup | exact ND | |].
    + intros i Hi. apply in_seq in Hi. destruct (mentioned_den T root i) with (g := gram_of_t r) as (x & Hp & Hx); [apply H1, H2; lia | exact Ht |]. exists x. split; [now apply HD | exact Hx].
    + intros i j x Hi Hj. exact (proj1 (den_inj T U) i x Hi j Hj).
  - apply (matched (fun x i => den T i x)); [exact ND | apply seq_NoDup | |].
    + intros x Hx. apply HD in Hx. destruct (part_den T x _ Hx root Ht) as (j & Hj). exists j. split; [apply in_seq; pose proof (den_lt _ _ _ Hj); lia | exact Hj].
    + intros x y i Hx Hy. exact (proj1 (den_fun T) i x Hx y Hy).
Qed.
