(** * PropArithGen: the generated arithmetic parser of chomp-bench (C67, C68).

    Vocabulary: [arith_chomp] (ArithGen: the compiler run on the grammar of
    chomp-bench/src/arith/nibble.rs), [parses] (PropGen: what the generated
    parser returns), [Expr] (SpecArith: expressions and their values),
    [parse_expr] (Arith: the hand-written parser), [of_ast] (ArithGen:
    [From<Ast> for i64]). *)
From Coq Require Import String ZArith.
From Verif Require Import EmitFacts ArithGenFacts PropGen PropMain.
From Coq Require Import List Lia.
Open Scope list_scope.
Local Opaque Z.pow.

Lemma arith_compiled : exists out, arith_chomp = Ok (arith_tab, arith_root, out).
Proof. eexists. vm_compute. reflexivity. Qed.
Lemma arith_compiles : exists e r, compiles heck e r arith_tab arith_root.
Proof.
  destruct arith_compiled as [out E]. destruct (chomp_inv _ _ _ _ _ _ _ E) as (s & e & v & r & _ & _ & _ & _ & Hc). eauto.
Qed.
Lemma arith_parses s t : parses arith_tab arith_root s (Ok t) <-> derives arith_tab arith_root t /\ yield t = s.
Proof. destruct arith_compiles as (e & r & H). exact (parse_ok_iff _ _ _ _ _ H s t). Qed.

(** ** C67: the language of the generated parser *)
(** The compiler accepts the grammar, and the generated parser accepts leading
    spaces followed by an expression, nothing else.  (Which texts are
    expressions does not depend on the arithmetic.) *)
Theorem C67_language C : exists tab root out, arith_chomp = Ok (tab, root, out) /\ forall s,
  (exists t, parses tab root s (Ok t)) <-> exists b w v, s = b ++ w /\ blank b /\ Expr C w v.
Proof.
  destruct arith_compiled as [out E]. exists arith_tab, arith_root, out. split; [exact E |]. intros s. split.
  - intros [t Ht]. apply arith_parses in Ht as [Hd <-]. apply (ast_good true) in Hd as (b & w & v & -> & Hb & He & _).
    enough (H : exists v', Expr C w v') by (destruct H as [v' H]; eauto 8). clear E. revert w v He.
    enough (H : (forall w v, Term checked w v -> exists v', Term C w v') /\ (forall w v, Prod checked w v -> exists v', Prod C w v') /\ (forall w v, Expr checked w v -> exists v', Expr C w v')) by apply H.
    assert (Hn : forall w v, Number checked w v -> exists v', Number C w v') by (intros w v [w' H1 H2]; eexists; now constructor).
    apply Term_mut; intros; repeat match goal with H : exists _, _ |- _ => destruct H | H : Number checked _ _ |- _ => apply Hn in H end; eexists; econstructor; eassumption.
  - intros (b & w & v & -> & Hb & He). destruct (ast_exists C b w v Hb He) as (t & Ht & E'). exists t. apply arith_parses. split; assumption.
Qed.
(** It always returns, and never panics. *)
Theorem C67_returns s : (exists t, parses arith_tab arith_root s (Ok t)) \/ (exists x, parses arith_tab arith_root s (Err x)).
Proof.
  destruct arith_compiled as [out E].
  destruct (chomp_inv _ _ _ _ _ _ _ E) as (st & e & v & r & Hp & Hc & Hr & Ht & Hcomp). apply (C25_ascii_no_panic _ _ _ _ _ s Hcomp).
  assert (A : forallb (forallb (fun c => N.ltb c 128)) (t_lits r) = true).
  { assert (B : (match parse_program (tokens_of arith_source) with Some st => match convert_program (fun _ _ => None) st with Ok e => match reduce 100 e with Ok v => match typecheck v with
      Ok r => forallb (forallb (fun c => N.ltb c 128)) (t_lits r) | _ => false end | _ => false end | _ => false end | None => false end) = true) by (vm_compute; reflexivity).
    rewrite Hp, Hc, Hr, Ht in B. exact B. }
  rewrite forallb_forall in A. intros w Hw. specialize (A w Hw). rewrite forallb_forall in A. unfold ascii. rewrite ?Forall_forall. intros c Hc'. apply N.ltb_lt, A, Hc'.
Qed.

(** The hand-written parser agrees about which texts are expressions. *)
Theorem C67_agrees k n s : 2 * length s + 2 <= n ->
  match parse_expr k n s with
  | Ok _ => exists t, parses arith_tab arith_root s (Ok t)
  | Err _ => exists x, parses arith_tab arith_root s (Err x)
  | Panic | OutOfFuel => True
  end.
Proof.
  intros Hn. destruct (parse_expr k n s) as [z | e | |] eqn:E; auto.
  - apply C55_value in E as (b & w & -> & Hb & He); [| exact Hn]. destruct (ast_exists _ b w _ Hb He) as (t & Ht & E'). exists t. apply arith_parses. split; assumption.
  - destruct (C67_returns s) as [[t Ht] | H]; [| exact H]. exfalso. apply arith_parses in Ht as [Hd <-]. apply (ast_good k) in Hd as (b & w & v & Ew & Hb & He & _).
    exact (C55_error n k _ e Hn E b w v Ew Hb He).
Qed.

(** ** C68: the value of the parse tree *)
(** With overflow checks, parsing with the generated parser and converting the
    tree gives what the hand-written parser gives. *)
Theorem C68_same_value n s z : 2 * length s + 2 <= n ->
  (parse_expr true n s = Ok z <-> exists t, parses arith_tab arith_root s (Ok t) /\ of_ast true t = Some z).
Proof.
  intros Hn. split.
  - intros E. apply C55_value in E as (b & w & -> & Hb & He); [| exact Hn]. destruct (ast_exists _ b w _ Hb He) as (t & Ht & E'). exists t.
    split; [apply arith_parses; split; assumption |]. apply (ast_good true) in Ht as (b' & w' & v & Ew & Hb' & He' & _ & Ev). rewrite (Ev eq_refl).
    destruct (parse_expr_spec true n _ Hn) as [_ H]. pose proof (H b w _ eq_refl Hb He) as H1. rewrite E' in Ew. pose proof (H b' w' v Ew Hb' He') as H2.
    rewrite H1 in H2. destruct v; congruence.
  - intros (t & Ht & Ev). apply arith_parses in Ht as [Hd <-]. apply (ast_good true) in Hd as (b & w & v & Ew & Hb & He & Hk & _).
    apply C55_value; [exact Hn |]. exists b, w. rewrite (Hk z Ev) in He. auto.
Qed.
(** And it panics on the same expressions. *)
Theorem C68_same_panic n s t : 2 * length s + 2 <= n -> parses arith_tab arith_root s (Ok t) -> (of_ast true t = None <-> parse_expr true n s = Panic).
Proof.
  intros Hn Ht. apply arith_parses in Ht as [Hd <-]. apply (ast_good true) in Hd as (b & w & v & Ew & Hb & He & _ & Ev). rewrite (Ev eq_refl).
  destruct (parse_expr_spec true n _ Hn) as [_ H]. rewrite (H b w v Ew Hb He). destruct v; split; congruence.
Qed.
(** Without overflow checks it gives the same value when it gives one. *)
Theorem C68_release n s t z : 2 * length s + 2 <= n -> parses arith_tab arith_root s (Ok t) -> of_ast false t = Some z -> parse_expr false n s = Ok z.
Proof.
  intros Hn Ht Ev. apply arith_parses in Ht as [Hd <-]. apply (ast_good false) in Hd as (b & w & v & Ew & Hb & He & Hk & _).
  apply C55_value; [exact Hn |]. exists b, w. rewrite (Hk z Ev) in He. auto.
Qed.
Lemma arith_run fuel s t : parse_str arith_tab fuel arith_root s = Ok t -> parses arith_tab arith_root s (Ok t).
Proof. intros E. rewrite <- E. apply parses_run. rewrite E. discriminate. Qed.
(** But it does not always give one: numbers are converted by [str::parse],
    which does not wrap. *)
Theorem C68_release_refuted : exists t, parses arith_tab arith_root big (Ok t) /\ of_ast false t = None /\ parse_expr false 50 big = Ok (- 2 ^ 63)%Z.
Proof.
  destruct (parse_str arith_tab 200 arith_root big) as [t | | |] eqn:E; [| vm_compute in E; discriminate E ..].
  exists t. split; [exact (arith_run _ _ _ E) |]. vm_compute in E. injection E as <-. split; vm_compute; reflexivity.
Qed.
(** The type names the conversions of nibble.rs rely on. *)
Example C67_ex_names : map (fun i => option_map en_name (nth_error arith_tab i)) [5; 6; 7; 31; 36; 42; 43; 46; 50; 55; 59; 64] =
  map (fun s => Some (TnIdent (lit s))) ["Arith1"; "Prod1"; "Pos1"; "Number1"; "Neg1"; "Parens1"; "RawTerm1"; "Term1"; "P1"; "Opt4"; "P2"; "Opt5"]%string
  /\ exists order, arith_chomp = Ok (arith_tab, arith_root, (order, (lit "Ast", TnIdent (lit "Ast1")))).
Proof. split; [vm_compute; reflexivity | eexists; vm_compute; reflexivity]. Qed.
Example C68_ex : exists t, parses arith_tab arith_root (lit " 1 + -2 * (3 - 10/ 4) ") (Ok t) /\ of_ast true t = Some (-1)%Z.
Proof.
  destruct (parse_str arith_tab 200 arith_root (lit " 1 + -2 * (3 - 10/ 4) ")) as [t | | |] eqn:E; [| vm_compute in E; discriminate E ..].
  exists t. split; [exact (arith_run _ _ _ E) |]. vm_compute in E. injection E as <-. vm_compute. reflexivity.
Qed.
Print Assumptions C67_language.
Print Assumptions C67_returns.
Print Assumptions C67_agrees.
Print Assumptions C68_same_value.
Print Assumptions C68_same_panic.
Print Assumptions C68_release.
Print Assumptions C68_release_refuted.
