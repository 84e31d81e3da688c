(** * PropSpan: layout does not matter (C78).

    Vocabulary: [chomp] (Main: src/main.rs on tokens), [unspan_token] (SpecSame:
    a token without its position), [without_positions] (SpecSame: an outcome
    whose error has lost its positions; code has none), [chomp_main] (AutoMain:
    src/main.rs on a text), [program_text] (SpecAuto: a text of a program, with
    any white space between its tokens), [shape_stmt], [printable_stmt]
    (SpecAuto: programs with such texts). *)
From Coq Require Import String.
From Verif Require Import Main Source AutoMain SpecSame SpecAuto Examples PropNibble PropMain AutoFront SpanFront.
From Coq Require Import List Lia.
Open Scope list_scope.

(** ** C78: positions are only reported *)
(** Token lists that differ only in positions have outcomes that differ only in
    positions, however spans are joined. *)
Theorem C78_positions : forall join join' cs fuel ts ts', map unspan_token ts = map unspan_token ts' ->
  without_positions (chomp join cs fuel ts) = without_positions (chomp join' cs fuel ts').
Proof. exact chomp_unspan. Qed.
(** So the code generated is the same, byte for byte. *)
Corollary C78_code : forall join join' cs fuel ts ts' c, map unspan_token ts = map unspan_token ts' ->
  chomp join cs fuel ts = Ok c -> chomp join' cs fuel ts' = Ok c.
Proof.
  intros join join' cs fuel ts ts' c E H. pose proof (C78_positions join join' cs fuel ts ts' E) as K. rewrite H in K. destruct (chomp join' cs fuel ts'); cbn in K; congruence.
Qed.
(** Two texts of one program, with different white space. *)
Lemma same_unspan t : forall t', same_token t t' -> unspan_token t = unspan_token t'.
Proof.
  induction t as [i | v sp | c sp | sp ts IH | sp] using token_ind'; intros t' H; inversion H as [| | | ? ? ? ? F]; subst; try reflexivity. cbn [unspan_token]. f_equal. clear H. induction F as [| x y l m Hx _ IHF]; cbn; [reflexivity |]. inversion IH; subst. f_equal; auto.
Qed.
Lemma sames_unspan l m : Forall2 same_token l m -> map unspan_token l = map unspan_token m.
Proof. induction 1 as [| x y l m H _ IH]; cbn; [reflexivity |]. now rewrite (same_unspan _ _ H), IH. Qed.
Theorem C78_layout : forall join join' cs fuel st s s', shape_stmt st -> program_text st s -> program_text st s' ->
  without_positions (chomp_main join cs fuel s) = without_positions (chomp_main join' cs fuel s').
Proof.
  intros join join' cs fuel st s s' Hs Ht Ht'. destruct (text_tokens_iff st s Hs Ht) as [A B], (text_tokens_iff st s' Hs Ht') as [A' B']. unfold chomp_main. destruct (forallb cleanb (stmt_tokens st)) eqn:C.
  - apply clean_stmt in C. destruct (A C) as (ts & -> & F), (A' C) as (ts' & -> & F'). apply C78_positions. rewrite <- (sames_unspan _ _ F). now apply sames_unspan.
  - rewrite B, B' by (rewrite <- clean_stmt; congruence). reflexivity.
Qed.
Corollary C78_layout_code : forall join join' cs fuel st s s' c, shape_stmt st -> program_text st s -> program_text st s' ->
  chomp_main join cs fuel s = Ok c -> chomp_main join' cs fuel s' = Ok c.
Proof.
  intros join join' cs fuel st s s' c Hs Ht Ht' H. pose proof (C78_layout join join' cs fuel st s s' Hs Ht Ht') as K. rewrite H in K. destruct (chomp_main join' cs fuel s'); cbn in K; congruence.
Qed.
Print Assumptions C78_positions.
Print Assumptions C78_code.
Print Assumptions C78_layout.
Print Assumptions C78_layout_code.
(** The example program with and without its positions; and a program with an
    undeclared name at two positions. *)
Definition bare_tokens : list token := map unspan_token ex_tokens.
Example C78_ex : ex_tokens <> bare_tokens /\ map unspan_token ex_tokens = map unspan_token bare_tokens /\ exists c, chomp no_join cs1 20 ex_tokens = Ok c.
Proof. split; [vm_compute; discriminate |]. split; [vm_compute; reflexivity |]. eexists. vm_compute. reflexivity. Qed.
Definition stray (p : span) : list token := [TkIdent (Ident false (lit "match") 0); TkIdent (Ident false (lit "x") p); TkPunct 59 9].
Example C78_ex_error : map unspan_token (stray 3) = map unspan_token (stray 5) /\ chomp no_join cs1 20 (stray 3) <> chomp no_join cs1 20 (stray 5)
  /\ exists n, chomp no_join cs1 20 (stray 3) = Err (MConvert (UndeclaredName n)).
Proof. split; [reflexivity |]. split; [vm_compute; discriminate |]. eexists. vm_compute. reflexivity. Qed.
(** [match _ | "a";] with and without white space. *)
Definition lab (t : node) : node := NLabelled (NCatP [(NCall [t], None)]) None.
Definition spaced : stmt := SGoal 0 (NAltP [(lab (NEpsilon 0), Some 0%N); (lab (NLiteral (lit "a") 0), None)]) 0.
Example C78_ex_layout : shape_stmt spaced /\ program_text spaced (lit "match _|""a"";") /\ program_text spaced (lit "  match   _ | ""a"" ; ")
  /\ exists c, chomp_main no_join cs1 20 (lit "match _|""a"";") = Ok c.
Proof.
  assert (Sp : forall n, gap (repeat 32%N n)) by (intros n; apply Forall_forall; intros x Hx; apply repeat_spec in Hx; subst; vm_compute; tauto).
  assert (T : forall m n, tokens_text (to_tokens (NAltP [(lab (NEpsilon 0), Some 0%N); (lab (NLiteral (lit "a") 0), None)])) (lit "_" ++ repeat 32%N m ++ lit "|" ++ repeat 32%N n ++ lit """a""")).
  { intros m n. cbn [to_tokens lab fst snd app map concat]. apply (text_more _ (lit "_")); [constructor; reflexivity | split; [apply Sp | intros _ H; discriminate H] |]. apply (text_more _ (lit "|")); [constructor | split; [apply Sp | intros []] |]. constructor.
    apply (text_str (lit "a") 0 (lit "a")). apply (chars_cons _ (lit "a") [] []); [apply text_plain; [vm_compute; split; discriminate | discriminate ..] | constructor]. }
  split; [| split; [| split]].
  - constructor. constructor. constructor. repeat constructor; discriminate.
  - exists [], (lit "match _|""a"";"). split; [constructor |]. split; [| reflexivity]. apply (text_goal 0 _ 0 (repeat 32%N 1) (lit "_|""a""") (repeat 32%N 0) (repeat 32%N 0)); [apply Sp | discriminate | apply (T 0 0) | apply Sp | apply Sp].
  - exists (repeat 32%N 2), (lit "match   _ | ""a"" ; "). split; [apply Sp |]. split; [| reflexivity]. apply (text_goal 0 _ 0 (repeat 32%N 3) (lit "_ | ""a""") (repeat 32%N 1) (repeat 32%N 1)); [apply Sp | discriminate | apply (T 1 1) | apply Sp | apply Sp].
  - eexists. vm_compute. reflexivity.
Qed.
