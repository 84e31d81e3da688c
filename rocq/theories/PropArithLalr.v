(** * PropArithLalr: the LALRPOP grammar of the arithmetic benchmark (C87).

    Vocabulary: [lalr_reads] (ArithLalr: the text is a sentence of
    chomp-bench/src/arith/lalr.lalrpop, with this value, [None] being a panic),
    [parses] and [of_ast] (the generated parser, and [From<Ast> for i64]),
    [parse_expr] (Arith: the hand-written parser), [Expr] and [blank]
    (SpecArith). *)
From Coq Require Import String ZArith.
From Verif Require Import EmitFacts ArithLalrFacts PropGen PropMain PropArithGen.
From Coq Require Import List Lia.
Open Scope list_scope.
Local Opaque Z.pow.

(** Texts without white space other than the space. *)
Definition spaces_only (s : rstr) : Prop := forall c, In c s -> white c = true -> c = chr " ".
Lemma spaces_plain s : spaces_only s <-> plain s.
Proof. unfold spaces_only, plain. rewrite Forall_forall. reflexivity. Qed.

(** ** The same sentences, with the same values *)
Theorem C87_same_value k s v : spaces_only s ->
  (lalr_reads k s v <-> exists t, parses arith_tab arith_root s (Ok t) /\ of_ast k t = v).
Proof.
  intros P. apply spaces_plain in P. split.
  - intros H. destruct (read_ast k s v P H) as (t & Ht & Ey & Ev). exists t. split; [apply arith_parses; split; assumption | exact Ev].
  - intros (t & Ht & <-). apply arith_parses in Ht as [Hd <-]. now apply ast_read.
Qed.
(** Any white space does for LALRPOP's lexer. *)
Definition as_space (c : char) : char := if white c then chr " " else c.
Lemma white_as_space c : white (as_space c) = white c.
Proof. unfold as_space. destruct (white c) eqn:E; [reflexivity | exact E]. Qed.
Lemma digit_as_space c : decimal_digit (as_space c) = decimal_digit c.
Proof. unfold as_space. destruct (white c) eqn:E; [| reflexivity]. rewrite (white_digit c E). reflexivity. Qed.
Lemma alex_as_space s : alex (map as_space s) = alex s.
Proof.
  induction s as [| c s IH]; [reflexivity |]. cbn [map alex]. rewrite IH. destruct (alex s) as [ts |]; [| reflexivity].
  rewrite white_as_space, digit_as_space. destruct (white c) eqn:W; [reflexivity |].
  assert (E : as_space c = c) by (unfold as_space; now rewrite W). rewrite E.
  assert (E' : starts_digit (map as_space s) = starts_digit s) by (destruct s; [reflexivity | apply digit_as_space]). now rewrite E'.
Qed.
Theorem C87_white_space k s v : lalr_reads k s v <-> exists t, parses arith_tab arith_root (map as_space s) (Ok t) /\ of_ast k t = v.
Proof.
  rewrite <- C87_same_value.
  - unfold lalr_reads. now rewrite alex_as_space.
  - intros c Hc W. apply in_map_iff in Hc as (d & <- & _). rewrite white_as_space in W. unfold as_space. now rewrite W.
Qed.
(** A text has at most one value. *)
Theorem C87_one_value k s v w : lalr_reads k s v -> lalr_reads k s w -> v = w.
Proof.
  intros Hv Hw. apply C87_white_space in Hv as (t & Ht & <-). apply C87_white_space in Hw as (u & Hu & <-).
  pose proof (parses_fun _ _ _ _ _ Ht Hu) as E. now injection E as ->.
Qed.

(** ** The hand-written parser *)
Theorem C87_hand n s z : spaces_only s -> 2 * length s + 2 <= n -> (parse_expr true n s = Ok z <-> lalr_reads true s (Some z)).
Proof. intros P Hn. rewrite (C87_same_value true s _ P). now apply C68_same_value. Qed.
(** Where an action of the grammar panics, so does the hand-written parser. *)
Theorem C87_hand_panics n s : spaces_only s -> 2 * length s + 2 <= n -> lalr_reads true s None -> parse_expr true n s = Panic.
Proof. intros P Hn H. apply (C87_same_value true s _ P) in H as (t & Ht & Ev). now apply (C68_same_panic n s t Hn Ht). Qed.
(** Without overflow checks, the same value when there is one. *)
Theorem C87_hand_release n s z : spaces_only s -> 2 * length s + 2 <= n -> lalr_reads false s (Some z) -> parse_expr false n s = Ok z.
Proof. intros P Hn H. apply (C87_same_value false s _ P) in H as (t & Ht & Ev). exact (C68_release n s t z Hn Ht Ev). Qed.
(** The sentences are the expressions. *)
Theorem C87_language k C s : spaces_only s -> ((exists v, lalr_reads k s v) <-> exists b w v, s = b ++ w /\ blank b /\ Expr C w v).
Proof.
  intros P. destruct (C67_language C) as (tab & root & out & E & H). destruct arith_compiled as [out' E']. rewrite E' in E. injection E as <- <- _.
  rewrite <- H. split.
  - intros [v Hv]. apply (C87_same_value k s v P) in Hv as (t & Ht & _). eauto.
  - intros [t Ht]. exists (of_ast k t). apply (C87_same_value k s _ P). eauto.
Qed.

(** ** Where they differ *)
(** A tab is read by the LALRPOP parser and by neither of the others; a number
    out of range is a panic for it even without overflow checks. *)
Theorem C87_tab_refuted : lalr_reads true (lit "1+" ++ 9%N :: lit "2") (Some 3%Z)
  /\ (forall t, ~ parses arith_tab arith_root (lit "1+" ++ 9%N :: lit "2") (Ok t)) /\ parse_expr true 20 (lit "1+" ++ 9%N :: lit "2") <> Ok 3%Z.
Proof.
  assert (N : parse_expr true 20 (lit "1+" ++ 9%N :: lit "2") <> Ok 3%Z) by (vm_compute; discriminate). split; [| split; [| exact N]].
  - exists [ANum (lit "1"); APlus; ANum (lit "2")]. split; [reflexivity |].
    apply (l_expr true [ANum (lit "1")] (Some 1%Z) [APlus; ANum (lit "2")] [(true, Some 2%Z)]).
    + apply (l_product true [ANum (lit "1")] (Some 1%Z) [] []); [exact (l_num true (lit "1")) | constructor].
    + apply (l_adds_cons true true [ANum (lit "2")] (Some 2%Z) [] []); [| constructor].
      apply (l_product true [ANum (lit "2")] (Some 2%Z) [] []); [exact (l_num true (lit "2")) | constructor].
  - intros t Ht. destruct (parse_str arith_tab 200 arith_root (lit "1+" ++ 9%N :: lit "2")) as [| x | |] eqn:E; [vm_compute in E; discriminate E | | vm_compute in E; discriminate E ..].
    assert (Hx : parses arith_tab arith_root (lit "1+" ++ 9%N :: lit "2") (Err x)) by (rewrite <- E; apply parses_run; rewrite E; discriminate).
    pose proof (parses_fun _ _ _ _ _ Ht Hx). discriminate.
Qed.
Theorem C87_release_refuted : spaces_only big /\ lalr_reads false big None /\ parse_expr false 50 big = Ok (- 2 ^ 63)%Z.
Proof.
  destruct C68_release_refuted as (t & Ht & Ev & E). assert (P : spaces_only big).
  { apply spaces_plain. unfold plain. repeat (constructor; [intros W; vm_compute in W; discriminate W |]). constructor. }
  split; [exact P |]. split; [| exact E]. apply (C87_same_value false big _ P). eauto.
Qed.
Example C87_ex : spaces_only (lit " 1 + -2 * (3 - 10/ 4) ") /\ lalr_reads true (lit " 1 + -2 * (3 - 10/ 4) ") (Some (-1)%Z).
Proof.
  assert (P : spaces_only (lit " 1 + -2 * (3 - 10/ 4) ")).
  { apply spaces_plain. unfold plain. repeat (constructor; [intros W; vm_compute in W |- *; first [reflexivity | discriminate W] |]). constructor. }
  split; [exact P |]. apply (C87_same_value true _ _ P), C68_ex.
Qed.
(** A sentence whose evaluation panics. *)
Example C87_ex_panic : lalr_reads true (lit "1/0") None.
Proof.
  exists [ANum (lit "1"); AOver; ANum (lit "0")]. split; [reflexivity |].
  apply (l_expr true [ANum (lit "1"); AOver; ANum (lit "0")] None [] []); [| constructor].
  apply (l_product true [ANum (lit "1")] (Some 1%Z) [AOver; ANum (lit "0")] [(false, Some 0%Z)]); [exact (l_num true (lit "1")) |].
  apply (l_muls_cons true false [ANum (lit "0")] (Some 0%Z) [] []); [exact (l_num true (lit "0")) | constructor].
Qed.
Print Assumptions C87_same_value.
Print Assumptions C87_white_space.
Print Assumptions C87_one_value.
Print Assumptions C87_hand.
Print Assumptions C87_hand_panics.
Print Assumptions C87_hand_release.
Print Assumptions C87_language.
Print Assumptions C87_tab_refuted.
Print Assumptions C87_release_refuted.
