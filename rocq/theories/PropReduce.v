(** * PropReduce: theorems about substitution and reduction.

    Vocabulary: [substitute], [reduce] (the model of the code), [erase] (the
    lambda expression an expression of the code stands for), [lsub], [inst],
    [steps], [evals], [fails], [scoped], [evaluated], [lgram] (SpecBeta),
    [has_sty] (SpecSimple). *)
From Coq Require Import String.
From Verif Require Import ReduceMore ReduceFacts StepFacts BetaFacts SimpleFacts SpecSimple Examples.
From Coq Require Import List Lia.
Open Scope list_scope.

(** ** Examples *)
(** [let list x = !(/y/ x . y | _); match list("a");] *)
Definition ex_call : nexpr :=
  ELet a0 (nlet "list") (ELam a0 [nvar "x"] (fix1 "y" (alt2 (cat2 (V 1) (V 0)) (EEps a0))))
    (ECall (Ann None 7%N) (V 0) [L "a"]).
(** [let swap x y = y . x; /u/ swap(u, swap("a", u))], the body of a function
    of [u]: arguments that mention outer variables. *)
Definition ex_swap : nexpr :=
  ELet a0 (nlet "swap") (ELam a0 [nvar "x"; nvar "y"] (cat2 (V 0) (V 1)))
    (ECall a0 (V 0) [V 1; ECall a0 (V 0) [L "a"; V 1]]).
(** [let w x = x(x); match w(w);] *)
Definition ex_omega : nexpr :=
  ELet a0 (nlet "w") (ELam a0 [nvar "x"] (ECall a0 (V 0) [V 0])) (ECall a0 (V 0) [V 0]).

(** ** C38: substitution *)
Theorem C38_substitute : forall e k x, exists e',
  substitute e (Subst k x) = Some (e', Subst k x) /\ erase e' = lsub (at_var k (erase x)) (erase e).
Proof. exact substitute_ok. Qed.
Print Assumptions C38_substitute.
(** Under a binder, with a replacement that has a free variable. *)
Example C38_ex : exists e', substitute (ELam a0 [nvar "x"; nvar "y"] (cat3 (V 0) (V 2) (V 3))) (Subst 0 (V 5)) = Some (e', Subst 0 (V 5))
  /\ erase e' = LLam 2 (LCat [LVar 0; LVar 7; LVar 2]).
Proof. eexists. split; vm_compute; reflexivity. Qed.

(** ** C39: calls *)
Theorem C39_call : forall n a b ns inner args, List.length ns = List.length args -> exists out,
  erase out = lsub (inst (map erase args)) (erase inner)
  /\ reduce (S (S n)) (ECall a (ELam b ns inner) args)
     = res_map (fun v => set_ann (Ann (merge_all [a_name a; a_name b; e_name v]) (a_span a)) v) (reduce (S n) out).
Proof.
  intros n a b ns inner args H. destruct (bind_args_ok args ns inner H) as (out & B & E). exists out. split; [exact E |].
  rewrite reduce_call. cbn [reduce res_bind]. rewrite H, Nat.eqb_refl, B. reflexivity.
Qed.
Print Assumptions C39_call.
Example C39_ex : exists v, reduce 10 ex_swap = Ok v /\ erase v = LCat [LCat [LVar 0; LLit (lit "a")]; LVar 0].
Proof. eexists. split; vm_compute; reflexivity. Qed.

(** ** C40: reduction is evaluation, and takes beta steps only *)
Theorem C40_sound : forall n e v, reduce n e = Ok v -> steps (erase e) (erase v).
Proof. intros n e v H. apply evals_steps. pose proof (reduce_sound n e) as Hs. now rewrite H in Hs. Qed.
Theorem C40_exact : forall e w, (exists n v, reduce n e = Ok v /\ erase v = w) <-> evals (erase e) w.
Proof.
  intros e w. split; [| apply reduce_evals]. intros (n & v & H & <-). pose proof (reduce_sound n e) as Hs. now rewrite H in Hs.
Qed.
Print Assumptions C40_sound.
Print Assumptions C40_exact.
Example C40_ex : exists v, reduce 10 ex_call = Ok v
  /\ erase v = LFix (LLam 1 (LAlt [LCat [LLit (lit "a"); LVar 0]; LEps])).
Proof. eexists. split; vm_compute; reflexivity. Qed.

(** ** C41: scoping *)
Theorem C41_scoped : forall n e v k, reduce n e = Ok v -> scoped k (erase e) -> scoped k (erase v).
Proof. intros n e v k H. apply evals_scoped. pose proof (reduce_sound n e) as Hs. now rewrite H in Hs. Qed.
Print Assumptions C41_scoped.
Example C41_ex : scoped 0 (erase ex_call) /\ scoped 1 (erase ex_swap) /\ ~ scoped 0 (erase ex_swap).
Proof. cbn. repeat split; try lia. Qed.

(** ** C42: nothing is left to evaluate *)
Theorem C42_evaluated : forall n e v, reduce n e = Ok v -> evaluated (erase v).
Proof. intros n e v H. pose proof (reduce_sound n e) as Hs. rewrite H in Hs. now apply evals_evaluated in Hs. Qed.
Print Assumptions C42_evaluated.

(** ** C43: the order of evaluation does not matter *)
(** Whatever grammar a program can be evaluated to, by beta steps in any
    order and place, is what Reduce returns. *)
Theorem C43_unique : forall e w g, steps (erase e) w -> lgram w = Some g ->
  (exists n v, reduce n e = Ok v) /\ (forall n v, reduce n e = Ok v -> erase v = w /\ gram_of v = Some g)
  /\ (forall n x, reduce n e <> Err x).
Proof.
  intros e w g Hs Hg. pose proof (proj1 (evals_grammar _ _ _ Hg) Hs) as He. split; [| split].
  - destruct (reduce_evals e w He) as (n & v & H & _). eauto.
  - intros n v H. assert (E : erase v = w).
    { pose proof (reduce_sound n e) as Hv. rewrite H in Hv. eapply evals_det; eassumption. }
    split; [exact E |]. now rewrite gram_of_lgram, E.
  - intros n x H. destruct (reduce_evals e w He) as (n' & v & H' & _).
    pose proof (mono_err n (max n n') e x (Nat.le_max_l _ _) H). pose proof (mono_ok n' (max n n') e v (Nat.le_max_r _ _) H'). congruence.
Qed.
Corollary C43_grammars : forall e w w' g g', steps (erase e) w -> steps (erase e) w' -> lgram w = Some g -> lgram w' = Some g' -> w = w'.
Proof.
  intros e w w' g g' H H' G G'. destruct (C43_unique e w g H G) as ((n & v & R) & U & _). destruct (U n v R) as [<- _].
  now destruct (C43_unique e w' g' H' G') as (_ & U' & _); destruct (U' n v R) as [<- _].
Qed.
Print Assumptions C43_unique.

(** ** C44: termination *)
(** Reduction does not return on every program. *)
Theorem C44_terminates_refuted : scoped 0 (erase ex_omega) /\ forall n, reduce n ex_omega = OutOfFuel.
Proof.
  split; [cbn; repeat split; lia |].
  set (W := LLam 1 (LCall (LVar 0) [LVar 0])).
  assert (NE : forall e v, evals e v -> e <> LCall W [W]).
  { refine (proj1 (conj (evals_mi (fun e _ => e <> LCall W [W]) (fun _ _ => True) _ _ _ _ _ _ _ _ _ _ _ _) Logic.I)); try discriminate; auto.
    intros f n b args v Hf _ Hl _ IH E. injection E as -> ->. inversion Hf; subst. now apply IH. }
  assert (NF : forall e x, fails e x -> e <> LCall W [W]).
  { induction 1; try discriminate.
    - intros E. injection E as -> ->. inversion H; subst. discriminate H0.
    - intros E. injection E as -> ->. inversion H; subst. now apply H0.
    - intros E. injection E as -> ->. inversion H.
    - intros E. injection E as -> ->. inversion H; subst. now apply IHfails. }
  intros n. pose proof (reduce_sound n ex_omega) as H. destruct (reduce n ex_omega) as [v | x | |]; [| | elim H | reflexivity]; exfalso.
  - cbn in H. inversion H; subst. eapply NE; [eassumption | reflexivity].
  - cbn [reduce_spec erase ex_omega V] in H. inversion H; subst. eapply NF; [eassumption | reflexivity].
Qed.
(** Exactly: it returns a grammar on the programs that have one. *)
Theorem C44_returns : forall e,
  (exists n v g, reduce n e = Ok v /\ gram_of v = Some g) <-> (exists w g, steps (erase e) w /\ lgram w = Some g).
Proof.
  intros e. split.
  - intros (n & v & g & H & G). exists (erase v), g. rewrite <- gram_of_lgram. eauto using C40_sound.
  - intros (w & g & H & G). destruct (C43_unique e w g H G) as ((n & v & R) & U & _). exists n, v, g. split; [exact R | now apply (U n)].
Qed.
(** All simply typed programs are among them. *)
Theorem C44_typed : forall e, has_sty [] (erase e) SGram -> exists n v g, reduce n e = Ok v /\ gram_of v = Some g.
Proof.
  intros e H. destruct (typed_evals [] _ (Forall_nil _) H) as (w & g & He & Hg). apply C44_returns. exists w, g.
  split; [now apply evals_steps | exact Hg].
Qed.
Print Assumptions C44_terminates_refuted.
Print Assumptions C44_returns.
Print Assumptions C44_typed.
Example C44_ex : has_sty [] (erase ex_call) SGram.
Proof.
  cbn. eapply sty_let.
  - apply (sty_lam [] [SGram] _ SGram). cbn. apply sty_fix. apply (sty_lam [SGram] [SGram] _ SGram). cbn.
    apply sty_alt. cbn. repeat constructor.
  - eapply sty_call; [constructor; reflexivity | repeat constructor].
Qed.

(** ** C45: errors *)
Theorem C45_errors : forall e x, (exists n y, reduce n e = Err y /\ failure_of y = x) <-> fails (erase e) x.
Proof.
  intros e x. split.
  - intros (n & y & H & <-). pose proof (reduce_sound n e) as Hs. now rewrite H in Hs.
  - intros H. eapply reduce_fails; [exact H | reflexivity].
Qed.
Theorem C45_never_panics : forall n e, reduce n e <> Panic.
Proof. intros n e H. pose proof (reduce_sound n e) as Hs. now rewrite H in Hs. Qed.
(** The error value: the called function is reported as it is called. *)
Theorem C45_error_values : forall n e y, reduce n e = Err y ->
  match y with
  | CallNotAFunction on _ => is_lam (erase on) = false
  | WrongArgCount l args _ => exists a ns b, l = ELam a ns b /\ List.length ns <> List.length args
  end.
Proof.
  induction n as [| n IH]; intros e y H; [discriminate H |].
  assert (HP : forall r, reduce_list (part n) r = Err y -> exists p x, In (p, x) r /\ reduce n x = Err y).
  { induction r as [| [p x] r IHr]; intros E; cbn [reduce_list fst snd] in E; [discriminate E |].
    destruct (reduce n x) as [v | z | |] eqn:F; cbn [res_map] in E; try discriminate E.
    - destruct (reduce_list _ r); try discriminate E. destruct (IHr E) as (q & w & Hin & Hw). exists q, w. split; [now right | exact Hw].
    - injection E as ->. exists p, x. split; [now left | exact F]. }
  destruct e as [a | a s | a f r | a f r | a i | a i | a o l | a ns i | a nm d b]; try discriminate H.
  - cbn [reduce] in H. destruct (reduce n f) as [f' | z | |] eqn:F; cbn [res_bind] in H; try discriminate H.
    + destruct (reduce_list _ r) as [r' | z | |] eqn:G; try discriminate H. injection H as ->.
      destruct (HP r G) as (p & x & _ & Hx). exact (IH _ _ Hx).
    + injection H as ->. exact (IH _ _ F).
  - cbn [reduce] in H. destruct (reduce n f) as [f' | z | |] eqn:F; cbn [res_bind] in H; try discriminate H.
    + destruct (reduce_list _ r) as [r' | z | |] eqn:G; try discriminate H. injection H as ->.
      destruct (HP r G) as (p & x & _ & Hx). exact (IH _ _ Hx).
    + injection H as ->. exact (IH _ _ F).
  - cbn [reduce] in H. destruct (reduce n i) as [i' | z | |] eqn:F; cbn [res_bind] in H; try discriminate H.
    + destruct i'; try discriminate H. destruct (reduce n i') eqn:G; try discriminate H. injection H as ->. exact (IH _ _ G).
    + injection H as ->. exact (IH _ _ F).
  - rewrite reduce_call in H. destruct (reduce n o) as [o' | z | |] eqn:F; cbn [res_bind] in H; try discriminate H.
    + destruct o' as [| | | | | | | b ns j |]; try (injection H as <-; reflexivity).
      destruct (Nat.eqb_spec (List.length ns) (List.length l)) as [E | E].
      * destruct (bind_args _ j) as [out |]; [| discriminate H]. destruct (reduce n out) as [v | z | |] eqn:G; try discriminate H.
        injection H as ->. exact (IH _ _ G).
      * injection H as <-. eauto 6.
    + injection H as ->. exact (IH _ _ F).
  - rewrite reduce_let in H. destruct (substitute b _) as [[out st] |]; [| discriminate H].
    destruct (reduce n out) as [v | z | |] eqn:G; try discriminate H. injection H as ->. exact (IH _ _ G).
Qed.
Print Assumptions C45_errors.
Print Assumptions C45_never_panics.
Print Assumptions C45_error_values.
(** [let f x = x; match f("a", "b") . "c"("d");]: the first bad call is reported. *)
Example C45_ex : exists y, reduce 10 (ELet a0 (nlet "f") (ELam a0 [nvar "x"] (V 0))
    (cat2 (ECall (Ann None 4%N) (V 0) [L "a"; L "b"]) (ECall (Ann None 5%N) (L "c") [L "d"]))) = Err y
  /\ failure_of y = WrongArity 1 (LVar 0) [LLit (lit "a"); LLit (lit "b")] /\ err_span y = 4%N.
Proof. eexists. split; [vm_compute; reflexivity |]. split; reflexivity. Qed.

(** ** C64: a reduction error points at a call of the program *)
Theorem C64_error_position : forall n e y, reduce n e = Err y -> In (err_span y) (call_spans e).
Proof.
  intros n e y H. pose proof (reduce_calls (fun s => In s (call_spans e)) n e) as Hc. rewrite H in Hc. apply Hc.
  apply calls_at_spans. auto.
Qed.
Print Assumptions C64_error_position.

(** ** C46: idempotence *)
Theorem C46_idempotent : forall n e v, reduce n e = Ok v ->
  (exists m, reduce m v = Ok v) /\ (forall m, reduce m v = Ok v \/ reduce m v = OutOfFuel).
Proof.
  intros n e v H. destruct (evaluated_reduce v (C42_evaluated _ _ _ H)) as [m Hm]. split; [eauto |]. intros k.
  destruct (reduce k v) as [w | x | |] eqn:E; auto; left.
  - pose proof (mono_ok k (max k m) v w (Nat.le_max_l _ _) E). pose proof (mono_ok m (max k m) v v (Nat.le_max_r _ _) Hm). congruence.
  - pose proof (mono_err k (max k m) v x (Nat.le_max_l _ _) E). pose proof (mono_ok m (max k m) v v (Nat.le_max_r _ _) Hm). congruence.
  - now apply C45_never_panics in E.
Qed.
Print Assumptions C46_idempotent.

(** ** C20: no call or let reaches the type checker *)
Theorem C20_no_call_or_let : forall n e v fuel nm c x, reduce n e = Ok v -> infer fuel nm c v = Err x ->
  (forall sp y, x <> UnexpectedCall sp y) /\ (forall sp y, x <> UnexpectedLet sp y).
Proof.
  intros n e v fuel nm c x H E. pose proof (evaluated_infer v (C42_evaluated _ _ _ H) fuel nm c x E) as Hn.
  split; intros sp y ->; apply Hn; exact Logic.I.
Qed.
Print Assumptions C20_no_call_or_let.
(** A reduced program that the type checker does reject. *)
Example C20_ex : exists v x, reduce 10 (ELet a0 (nlet "f") (ELam a0 [nvar "x"] (cat2 (V 0) (V 0))) (V 0)) = Ok v
  /\ typecheck v = Err x.
Proof. eexists. eexists. split; vm_compute; reflexivity. Qed.
