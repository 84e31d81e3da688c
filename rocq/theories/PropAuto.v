(** * PropAuto: autonibble, the front end generated from nibble's own grammar
    (C60, C73 to C76).

    Vocabulary: [auto_chomp] (AutoNibble: the compiler run on the grammar of
    autonibble/src/lib.rs), [parses] (PropGen: what the generated parser
    returns), [auto_convert] (AutoNibble: [Ast::convert]), [items] (AutoNibble:
    what an iterator returns until it ends), [convert_program] (Convert: the
    conversion of chomp), [chomp_reads] (Source: chomp's own parser on a text),
    [shape_stmt], [program_text], [printable_stmt], [unreserved_stmt],
    [same_outcome], [same_program] (SpecAuto: programs, their texts, agreement),
    [nexpr_eqb] (AutoNibble: [PartialEq for NamedExpression]). *)
From Coq Require Import String.
From Verif Require Import EmitFacts PropGen PropMain PropNibble AutoTable.
From Verif Require Import AutoAgree AutoFront.
From Coq Require Import List Lia.
Open Scope list_scope.

Lemma auto_compiles : exists e r, compiles heck e r auto_tab auto_root.
Proof. destruct auto_compiled as [out E]. destruct (chomp_inv _ _ _ _ _ _ _ E) as (s & e & v & r & _ & _ & _ & _ & Hc). eauto. Qed.
Lemma auto_parses s t : parses auto_tab auto_root s (Ok t) <-> derives auto_tab auto_root t /\ yield t = s.
Proof. destruct auto_compiles as (e & r & H). exact (parse_ok_iff _ _ _ _ _ H s t). Qed.
Lemma auto_unique t t' : derives auto_tab auto_root t -> derives auto_tab auto_root t' -> yield t = yield t' -> t = t'.
Proof.
  intros H H' E. assert (P : parses auto_tab auto_root (yield t) (Ok t)) by (apply auto_parses; auto). assert (P' : parses auto_tab auto_root (yield t) (Ok t')) by (apply auto_parses; auto).
  pose proof (parses_fun _ _ _ _ _ P P') as X. now injection X.
Qed.
Lemma auto_run fuel s t : GenSem.parse_str auto_tab fuel auto_root s = Ok t -> parses auto_tab auto_root s (Ok t).
Proof. intros E. rewrite <- E. apply parses_run. rewrite E. discriminate. Qed.
(** The tree of a text reads every program with that text. *)
Lemma auto_reads s t st : parses auto_tab auto_root s (Ok t) -> shape_stmt st -> program_text st s -> reads_ast t st.
Proof.
  intros P Hs Ht. apply auto_parses in P as [Hd Ey]. destruct (reads_ast_complete st s Hs Ht) as (t' & Hr & Ey'). assert (t = t') as -> by (apply auto_unique; [exact Hd | now apply (reads_ast_derives t' st) | congruence]). exact Hr.
Qed.

(** ** C60: the iterators *)
(** The texts [xs] in order, each after a separator, make up the text. *)
Inductive in_order (sep : rstr -> Prop) : list rstr -> rstr -> Prop :=
| order_nil : in_order sep [] []
| order_cons s x xs w : sep s -> in_order sep xs w -> in_order sep (x :: xs) (s ++ x ++ w).
Definition spaces (w : rstr) : Prop := gap w /\ w <> [].
Definition mark (m : rstr) (w : rstr) : Prop := exists g, gap g /\ w = m ++ g.
(** The names of a definition or of a function (type [Names1], items [Ident1]). *)
Theorem C60_names t : derives auto_tab 22 t -> exists x xs w g,
  items opt3_next (into_iter t) = x :: xs /\ Forall (derives auto_tab 95) (x :: xs) /\ yield t = yield x ++ w ++ g /\ in_order spaces (map yield xs) w /\ gap g.
Proof.
  intros H. apply names_exists in H as [l H]. unfold items.
  enough (G : forall fuel, tree_size (into_iter t) <= fuel -> exists x xs w g, drain opt3_next fuel (into_iter t) = x :: xs /\ Forall (derives auto_tab 95) (x :: xs) /\ yield t = yield x ++ w ++ g /\ in_order spaces (map yield xs) w /\ gap g) by now apply G.
  induction H as [x o i Hx Ho | x w t i l Hx Hw _ IH]; intros fuel Hf; (destruct fuel as [| fuel]; [cbn in Hf; lia |]); cbn [into_iter drain opt3_next].
  - exists x, [], [], (yield o). split; [destruct Ho as [-> | (w & _ & ->)]; now destruct fuel |]. split; [repeat constructor; apply Hx |]. split; [cbn [yield flat_map]; now rewrite app_nil_r |]. split; [constructor |].
    destruct Ho as [-> | (w & Hw & ->)]; [constructor |]. cbn [yield flat_map]. rewrite !app_nil_r. now apply ws_sound.
  - destruct (IH fuel) as (y & ys & u & g & E & Fy & Ey & Ho & Hg); [cbn [into_iter tree_size list_sum map fold_right] in Hf |- *; lia |].
    exists x, (y :: ys), (yield w ++ yield y ++ u), g. unfold into_iter in E. rewrite E. split; [reflexivity |]. split; [constructor; [apply Hx | exact Fy] |].
    split; [cbn [yield flat_map]; now rewrite !app_nil_r, Ey, <- !app_assoc |]. split; [| exact Hg]. cbn [map]. constructor; [| exact Ho]. apply ws_sound in Hw as [A B]. now split.
Qed.
(** The arguments of a call (type [Opt13], items [Term1]). *)
Theorem C60_call t : derives auto_tab 195 t -> exists w g,
  Forall (derives auto_tab 110) (items opt13_next t) /\ yield t = w ++ g /\ in_order spaces (map yield (items opt13_next t)) w /\ gap g.
Proof.
  intros H. destruct (proj1 (proj2 (reads_exists_all (tree_size t))) t (le_n _) H) as [ns R]. unfold items.
  enough (G : forall fuel, tree_size t <= fuel -> exists w g, Forall (derives auto_tab 110) (drain opt13_next fuel t) /\ yield t = w ++ g /\ in_order spaces (map yield (drain opt13_next fuel t)) w /\ gap g) by now apply G.
  clear H. induction R as [| w Hw | w t n rest ns Hw Ht R IH]; intros fuel Hf; (destruct fuel as [| fuel]; [cbn in Hf; lia |]); cbn [drain opt13_next].
  - exists [], []. repeat split; constructor.
  - exists [], (yield w). cbn [yield flat_map]. rewrite !app_nil_r. repeat split; try constructor. now apply ws_sound.
  - destruct (IH fuel) as (u & g & F & Ey & Ho & Hg); [cbn [tree_size list_sum map fold_right] in Hf |- *; lia |]. exists (yield w ++ yield t ++ u), g.
    split; [constructor; [now apply (proj1 reads_derives_all LvTerm t n) | exact F] |]. split; [cbn [yield flat_map]; now rewrite !app_nil_r, Ey, <- !app_assoc |]. split; [| exact Hg]. cbn [map]. constructor; [| exact Ho]. apply ws_sound in Hw as [A B]. now split.
Qed.
Lemma rest_order L t : listed L -> derives auto_tab (rest_type L) t ->
  Forall (derives auto_tab (type_of L)) (items separated_next t) /\ in_order (mark (lit (sep_of L))) (map yield (items separated_next t)) (yield t).
Proof.
  intros HL H. destruct (proj2 (proj2 (reads_exists_all (tree_size t))) L t HL (le_n _) H) as (p & ps & R). unfold items.
  enough (G : forall fuel, tree_size t <= fuel -> Forall (derives auto_tab (type_of L)) (drain separated_next fuel t) /\ in_order (mark (lit (sep_of L))) (map yield (drain separated_next fuel t)) (yield t)) by now apply G.
  clear H. induction R as [L | L o t n rest p ps sp Ho Ht R IH]; intros fuel Hf; (destruct fuel as [| fuel]; [cbn in Hf; lia |]); cbn [drain separated_next].
  - split; constructor.
  - destruct (IH HL fuel) as [F Ho']; [cbn [tree_size list_sum map fold_right] in Hf |- *; lia |]. split; [constructor; [now apply (proj1 reads_derives_all L t n) | exact F] |].
    replace (yield (NAlt 1 (NCat [NLit (lit (sep_of L)); o; NBox (NCat [t; rest])]))) with ((lit (sep_of L) ++ yield o) ++ yield t ++ yield rest) by (cbn [yield flat_map]; now rewrite !app_nil_r, <- !app_assoc). cbn [map]. constructor; [| exact Ho'].
    exists (yield o). split; [| reflexivity]. apply (ows_gap (sep_ows L)); [| exact Ho]. destruct HL as [-> | ->]; cbn; tauto.
Qed.
(** The rest of a concatenation (type [Opt14], items [Call1]) and of an
    alternation (type [Opt16], items [Labelled1]). *)
Theorem C60_cat t : derives auto_tab 202 t -> Forall (derives auto_tab 109) (items separated_next t) /\ in_order (mark (lit ".")) (map yield (items separated_next t)) (yield t).
Proof. exact (rest_order LvCall t (or_introl eq_refl)). Qed.
Theorem C60_alt t : derives auto_tab 220 t -> Forall (derives auto_tab 214) (items separated_next t) /\ in_order (mark (lit "|")) (map yield (items separated_next t)) (yield t).
Proof. exact (rest_order LvLabelled t (or_intror eq_refl)). Qed.
(** The characters of a literal (type [Contents1], items [LiteralChar1]). *)
Theorem C60_characters t : derives auto_tab 112 t -> items opt11_next (into_iter t) <> [] /\
  Forall (derives auto_tab 172) (items opt11_next (into_iter t)) /\ yield t = concat (map yield (items opt11_next (into_iter t))) /\
  exists v, Forall2 (fun n x => char_text n (yield x)) v (items opt11_next (into_iter t)).
Proof.
  intros H. apply contents_sound in H as (v & y & l & -> & F). rewrite items_contents. split; [discriminate |]. split; [clear - F; induction F as [| n x v m Hx _ IH]; constructor; [apply Hx | exact IH] |].
  split; [rewrite plus_yield; now rewrite flat_map_concat_map |]. exists v. clear - F. induction F as [| n x v m Hx _ IH]; constructor; [apply Hx | exact IH].
Qed.
(** Every iterator ends, and has ended for good. *)
Theorem C60_ends next : In next [opt3_next; separated_next; opt13_next; opt11_next] ->
  (forall t fuel, tree_size t <= fuel -> drain next fuel t = items next t) /\ (forall t t', next t = (None, t') -> next t' = (None, t')).
Proof.
  intros Hn. assert (G : forall t x t', next t = (Some x, t') -> tree_size t' < tree_size t).
  { intros t x t' E. cbn in Hn. destruct Hn as [<- | [<- | [<- | [<- | []]]]]; unfold opt3_next, separated_next, opt13_next, opt11_next in E;
      repeat (match type of E with context [match ?y with _ => _ end] => destruct y; try discriminate E end); injection E as <- <-; cbn; lia. }
  split.
  - enough (A : forall m t, tree_size t <= m -> forall f f', tree_size t <= f -> tree_size t <= f' -> drain next f t = drain next f' t) by (intros t fuel Hf; now apply (A (tree_size t))).
    induction m as [| m IH]; intros t Hm f f' Hf Hf'; [destruct t; cbn in Hm; lia |]. destruct f as [| f]; [destruct t; cbn in Hf; lia |]. destruct f' as [| f']; [destruct t; cbn in Hf'; lia |]. cbn [drain].
    pose proof (G t) as Gt. destruct (next t) as [[x |] t']; [| reflexivity]. specialize (Gt x t' eq_refl). f_equal. apply IH; lia.
  - intros t t' E. assert (t' = finished) as ->.
    { cbn in Hn. destruct Hn as [<- | [<- | [<- | [<- | []]]]]; unfold opt3_next, separated_next, opt13_next, opt11_next in E;
        repeat (match type of E with context [match ?y with _ => _ end] => destruct y; try discriminate E end); now injection E as <-. }
    cbn in Hn. destruct Hn as [<- | [<- | [<- | [<- | []]]]]; reflexivity.
Qed.

(** ** C73: the language of autonibble *)
(** The compiler accepts the grammar, and the generated parser accepts exactly
    the texts of programs. *)
Theorem C73_language : exists tab root out, auto_chomp = Ok (tab, root, out) /\ forall s,
  (exists t, parses tab root s (Ok t)) <-> exists st, shape_stmt st /\ program_text st s.
Proof.
  destruct auto_compiled as [out E]. exists auto_tab, auto_root, out. split; [exact E |]. clear E. intros s. split.
  - intros [t Ht]. apply auto_parses in Ht as [Hd <-]. destruct (reads_ast_exists _ t (le_n _) Hd) as [st Hr]. exists st. now apply reads_ast_text.
  - intros (st & Hs & Ht). destruct (reads_ast_complete st s Hs Ht) as (t & Hr & <-). exists t. apply auto_parses. split; [now apply (reads_ast_derives t st) | reflexivity].
Qed.
(** It always returns, and never panics. *)
Theorem C73_returns s : (exists t, parses auto_tab auto_root s (Ok t)) \/ (exists x, parses auto_tab auto_root s (Err x)).
Proof.
  destruct auto_compiles as (e & r & H). apply (no_panic_table _ _ _ _ _ s H). intros id w c E. unfold def_of in E. destruct (nth_error auto_tab id) as [x |] eqn:Ex; [| discriminate]. injection E as Ed.
  pose proof auto_lits as A. rewrite forallb_forall in A. specialize (A x (nth_error_In _ _ Ex)). rewrite Ed, forallb_forall in A. unfold ascii. rewrite Forall_forall. intros y Hy. apply N.ltb_lt, A, Hy.
Qed.

(** ** C74: the conversion *)
(** The tree of a program converts as chomp converts the program: to the same
    expression with the same names, or to the same undeclared name. *)
Theorem C74_conversion : forall join st s, shape_stmt st -> program_text st s -> printable_stmt st ->
  exists t, parses auto_tab auto_root s (Ok t) /\ same_outcome same_program (auto_convert t) (convert_program join st).
Proof.
  intros join st s Hs Ht Hp. destruct (reads_ast_complete st s Hs Ht) as (t & Hr & <-). exists t. split; [apply auto_parses; split; [now apply (reads_ast_derives t st) | reflexivity] | now apply agree_ast].
Qed.
(** Then the two expressions are equal as the code compares them. *)
Corollary C74_equal : forall join st s t e e', shape_stmt st -> program_text st s -> parses auto_tab auto_root s (Ok t) ->
  auto_convert t = Ok e -> convert_program join st = Ok e' -> nexpr_eqb e e' = true.
Proof.
  intros join st s t e e' Hs Ht P E E'. pose proof (auto_reads _ _ _ P Hs Ht) as R. pose proof (agree_ast join t st R (oks_ast t st e R E)) as A. rewrite E, E' in A. inversion A; subst. now apply same_program_eqb.
Qed.
(** The conversion of a parsed tree returns an expression, an undeclared name,
    or panics; with a literal that holds a number that is no character it never
    returns an expression, and without one it never panics. *)
Theorem C74_outcomes : forall s t, parses auto_tab auto_root s (Ok t) ->
  (exists e, auto_convert t = Ok e) \/ (exists n, auto_convert t = Err (UndeclaredName n)) \/ auto_convert t = Panic.
Proof.
  intros s t P. apply auto_parses in P as [Hd _]. destruct (reads_ast_exists _ t (le_n _) Hd) as [st Hr]. pose proof (tame_ast t st Hr) as H. destruct (auto_convert t) as [e | [n | sp | sp | sp] | |]; eauto; contradiction.
Qed.
Theorem C74_unprintable : forall st s t, shape_stmt st -> program_text st s -> parses auto_tab auto_root s (Ok t) ->
  (forall e, auto_convert t = Ok e -> printable_stmt st) /\ (printable_stmt st -> auto_convert t <> Panic).
Proof.
  intros st s t Hs Ht P. pose proof (auto_reads _ _ _ P Hs Ht) as R. split; [intros e E; now apply (oks_ast t st e) |]. intros Hp E. pose proof (agree_ast no_join t st R Hp) as A. rewrite E in A. inversion A.
Qed.
(** It does panic: [match "\u{D800}";]. *)
Notation surrogate := (lit "match ""\u{D800}"";").
Theorem C74_never_panics_refuted : exists t, parses auto_tab auto_root surrogate (Ok t) /\ auto_convert t = Panic.
Proof.
  destruct (GenSem.parse_str auto_tab 100 auto_root surrogate) as [t | | |] eqn:E; [| vm_compute in E; discriminate E ..]. exists t. split; [exact (auto_run _ _ _ E) |].
  vm_compute in E. injection E as <-. vm_compute. reflexivity.
Qed.

(** ** C75: the two front ends agree *)
(** On a text both accept, the conversions agree. *)
Theorem C75_agree : forall join s t st, parses auto_tab auto_root s (Ok t) -> chomp_reads s = Some st ->
  same_outcome same_program (auto_convert t) (convert_program join st).
Proof.
  intros join s t st P E. pose proof P as P0. apply auto_parses in P as [Hd Ey]. destruct (reads_ast_exists _ t (le_n _) Hd) as [st0 Hr]. destruct (reads_ast_text t st0 Hr) as [Hs Ht]. rewrite Ey in Ht.
  destruct (chomp_reads_only st0 s st Hs Ht E) as [Hp Hu]. destruct (chomp_reads_some st0 s Hs Ht Hp Hu) as (st' & E' & Hs' & Ht' & Hp'). rewrite E in E'. injection E' as <-.
  apply agree_ast; [now apply (auto_reads s t st) | exact Hp'].
Qed.
Corollary C75_equal : forall join s t st e e', parses auto_tab auto_root s (Ok t) -> chomp_reads s = Some st -> auto_convert t = Ok e -> convert_program join st = Ok e' -> nexpr_eqb e e' = true.
Proof. intros join s t st e e' P E H H'. pose proof (C75_agree join s t st P E) as A. rewrite H, H' in A. inversion A; subst. now apply same_program_eqb. Qed.
(** On a text autonibble accepts, chomp's parser gives up exactly if a literal
    holds a number that is no character or a parameter is a reserved word. *)
Theorem C75_exactly : forall s t, parses auto_tab auto_root s (Ok t) -> exists st, shape_stmt st /\ program_text st s /\
  (chomp_reads s <> None <-> printable_stmt st /\ unreserved_stmt st).
Proof.
  intros s t P. apply auto_parses in P as [Hd Ey]. destruct (reads_ast_exists _ t (le_n _) Hd) as [st Hr]. destruct (reads_ast_text t st Hr) as [Hs Ht]. rewrite Ey in Ht. exists st. split; [exact Hs |]. split; [exact Ht |]. split.
  - destruct (chomp_reads s) as [st' |] eqn:E; [intros _; now apply (chomp_reads_only st s st') | intros X; now elim X].
  - intros [Hp Hu]. destruct (chomp_reads_some st s Hs Ht Hp Hu) as (st' & E & _). rewrite E. discriminate.
Qed.
(** So where chomp's front end gives an expression, autonibble, if it reads the
    text at all, gives the same; and autonibble gives one chomp does not give
    only if a parameter is a reserved word. *)
Corollary C75_chomp_first : forall join s t st e', parses auto_tab auto_root s (Ok t) -> chomp_reads s = Some st -> convert_program join st = Ok e' ->
  exists e, auto_convert t = Ok e /\ same_program e e'.
Proof. intros join s t st e' P E H. pose proof (C75_agree join s t st P E) as A. rewrite H in A. inversion A; subst; eauto. Qed.
Corollary C75_auto_first : forall join s t e, parses auto_tab auto_root s (Ok t) -> auto_convert t = Ok e -> exists st, shape_stmt st /\ program_text st s /\
  (unreserved_stmt st <-> exists st' e', chomp_reads s = Some st' /\ convert_program join st' = Ok e' /\ same_program e e').
Proof.
  intros join s t e P H. pose proof P as P0. apply auto_parses in P as [Hd Ey]. destruct (reads_ast_exists _ t (le_n _) Hd) as [st Hr]. destruct (reads_ast_text t st Hr) as [Hs Ht]. rewrite Ey in Ht. exists st. split; [exact Hs |]. split; [exact Ht |]. split.
  - intros Hu. destruct (chomp_reads_some st s Hs Ht (oks_ast t st e Hr H) Hu) as (st' & E & _). exists st'. pose proof (C75_agree join s t st' P0 E) as A. rewrite H in A. inversion A; subst; eauto.
  - intros (st' & e' & E & _). now apply (chomp_reads_only st s st').
Qed.

(** ** C76: the two front ends do not accept the same programs *)
(** A parameter called [self]: only autonibble accepts it. *)
Notation reserved_text := (lit "let f self = self . ""a""; match f ""b"";").
Theorem C76_only_auto_refuted : exists t e, parses auto_tab auto_root reserved_text (Ok t) /\ auto_convert t = Ok e /\ chomp_reads reserved_text = None.
Proof.
  destruct (GenSem.parse_str auto_tab 100 auto_root reserved_text) as [t | | |] eqn:E; [| vm_compute in E; discriminate E ..]. exists t. destruct (auto_convert t) as [e | | |] eqn:C.
  - exists e. split; [exact (auto_run _ _ _ E) |]. split; [reflexivity |]. vm_compute. reflexivity.
  - vm_compute in E. injection E as <-. vm_compute in C. discriminate C.
  - vm_compute in E. injection E as <-. vm_compute in C. discriminate C.
  - vm_compute in E. injection E as <-. vm_compute in C. discriminate C.
Qed.
(** An argument in parentheses without a space, an empty literal, a name that
    starts with an underscore, a keyword or an argument right before the next
    term: only chomp accepts them. *)
Definition only_chomp : list rstr := [lit "let f x = x; match f(""a"");"; lit "match """";"; lit "let _x = ""a""; match _x;"; lit "match(""a"");"; lit "match !""a""!_;" ].
Theorem C76_only_chomp_refuted : forall s, In s only_chomp ->
  (exists st e, chomp_reads s = Some st /\ convert_program no_join st = Ok e) /\ forall t, ~ parses auto_tab auto_root s (Ok t).
Proof.
  intros s H. assert (A : forallb (fun s => match chomp_reads s with Some st => match convert_program no_join st with Ok _ => true | _ => false end | None => false end && match GenSem.parse_str auto_tab 100 auto_root s with Err _ => true | _ => false end)%bool only_chomp = true) by (vm_compute; reflexivity).
  rewrite forallb_forall in A. specialize (A s H). apply Bool.andb_true_iff in A as [A B]. split.
  - destruct (chomp_reads s) as [st |]; [| discriminate A]. destruct (convert_program no_join st) as [e | | |] eqn:C; try discriminate A. exists st, e. auto.
  - intros t Ht. destruct (GenSem.parse_str auto_tab 100 auto_root s) as [t' | x | |] eqn:E; try discriminate B. assert (P : parses auto_tab auto_root s (Err x)) by (rewrite <- E; apply parses_run; rewrite E; discriminate). pose proof (parses_fun _ _ _ _ _ Ht P). discriminate.
Qed.

(** ** Examples *)
(** The type names the conversions of autonibble rely on. *)
Example C73_ex_names : map (fun i => option_map en_name (nth_error auto_tab i)) [0; 22; 95; 99; 101; 106; 107; 108; 109; 110; 112; 141; 143; 144; 145; 146; 169; 170; 171; 172; 175; 188; 193; 195; 202; 209; 213; 214; 220] =
  map (fun s => Some (TnIdent (lit s))) ["Ast1"; "Names1"; "Ident1"; "Opt3"; "Opt4"; "Expr1"; "Alt1"; "Cat1"; "Call1"; "Term1"; "Contents1"; "Literal1"; "Ascii1"; "OctDigit1"; "HexDigit1"; "Oct1"; "Unicode1"; "Alt171"; "Escape1"; "LiteralChar1"; "Opt11"; "Variable1"; "Opt12"; "Opt13"; "Opt14"; "Ident2"; "Opt15"; "Labelled1"; "Opt16"]%string.
Proof. vm_compute. reflexivity. Qed.
(** The comparisons of autonibble/tests/compare/main.rs, and autonibble on its
    own grammar. *)
Definition newline : string := String (Ascii.ascii_of_nat 10) "".
Definition sheep : string := "let opt x = _ | x;" ++ newline ++ "let plus x = !(/rec/ x . opt rec);" ++ newline ++ "match ""ba"" . plus ""a"";" ++ newline.
Definition ratata : string := "let opt x = _ | x;" ++ newline ++ "let plus x = !(/rec/ x . opt rec);" ++ newline ++ "match plus ((""r"" | ""t"") . ""a"");" ++ newline.
Definition regex : string := "let opt x = _ | x;" ++ newline ++ "let plus x = !(/plus/ x . opt plus);" ++ newline ++ "let star x = !(/star/ opt (x . star));" ++ newline ++ newline ++ "match plus ""a"" . star ""b"";" ++ newline.
Definition regex_fix : string := "let opt x = _ | x;" ++ newline ++ "let ws = !(/star/ opt ("" "" . star));" ++ newline ++ newline ++ "match !(/rec/ ""a"" . opt (""."" . ws . rec));" ++ newline.
Definition compared (s : rstr) : Prop := exists t st e e', parses auto_tab auto_root s (Ok t) /\ chomp_reads s = Some st /\ auto_convert t = Ok e /\ convert_program no_join st = Ok e' /\ nexpr_eqb e e' = true.
Lemma compared_run s : (match GenSem.parse_str auto_tab 600 auto_root s, chomp_reads s with
  Ok t, Some st => match auto_convert t, convert_program no_join st with Ok e, Ok e' => nexpr_eqb e e' | _, _ => false end | _, _ => false end) = true -> compared s.
Proof.
  intros H. destruct (GenSem.parse_str auto_tab 600 auto_root s) as [t | | |] eqn:P; try discriminate H. destruct (chomp_reads s) as [st |] eqn:R; [| discriminate H].
  destruct (auto_convert t) as [e | | |] eqn:A; try discriminate H. destruct (convert_program no_join st) as [e' | | |] eqn:B; try discriminate H. exists t, st, e, e'. split; [exact (auto_run _ _ _ P) |]. auto.
Qed.
Example C75_ex : Forall (fun s => compared (lit s)) [sheep; ratata; regex; regex_fix].
Proof. repeat constructor; apply compared_run; vm_compute; reflexivity. Qed.
Example C75_ex_self : compared (lit auto_source).
Proof. apply compared_run. vm_compute. reflexivity. Qed.
(** An undeclared name is reported by both. *)
Example C75_ex_undeclared : exists t st n m, parses auto_tab auto_root (lit "match x;") (Ok t) /\ chomp_reads (lit "match x;") = Some st /\ auto_convert t = Err (UndeclaredName n) /\ convert_program no_join st = Err (UndeclaredName m) /\ same_name n m.
Proof.
  destruct (GenSem.parse_str auto_tab 100 auto_root (lit "match x;")) as [t | | |] eqn:E; [| vm_compute in E; discriminate E ..]. exists t. eexists. eexists. eexists. split; [exact (auto_run _ _ _ E) |]. split; [vm_compute; reflexivity |].
  vm_compute in E. injection E as <-. split; [vm_compute; reflexivity |]. split; [vm_compute; reflexivity |]. now apply (same_text (Ident false (lit "x") _)).
Qed.
(** The iterators on [let f x yy ...], [f a bb] and ["a\x41"]. *)
Example C60_ex : exists t, derives auto_tab 22 t /\ map yield (items opt3_next (into_iter t)) = [lit "f"; lit "x"; lit "yy"].
Proof.
  destruct (take auto_tab 100 22 (iw_new (lit "f x  yy "))) as [[t | | |] st] eqn:E; [| vm_compute in E; discriminate E ..]. exists t. split.
  - pose proof (take_sound auto_tab 100 22 [] (lit "f x  yy ") _ (at_cursor_new _)) as H. rewrite E in H. destruct H as (u & w & _ & _ & _ & Hd). apply (Hd t eq_refl).
  - vm_compute in E. injection E as <- _. vm_compute. reflexivity.
Qed.
Print Assumptions C60_names.
Print Assumptions C60_call.
Print Assumptions C60_cat.
Print Assumptions C60_alt.
Print Assumptions C60_characters.
Print Assumptions C60_ends.
Print Assumptions C73_language.
Print Assumptions C73_returns.
Print Assumptions C74_conversion.
Print Assumptions C74_equal.
Print Assumptions C74_outcomes.
Print Assumptions C74_unprintable.
Print Assumptions C74_never_panics_refuted.
Print Assumptions C75_agree.
Print Assumptions C75_equal.
Print Assumptions C75_exactly.
Print Assumptions C75_chomp_first.
Print Assumptions C75_auto_first.
Print Assumptions C76_only_auto_refuted.
Print Assumptions C76_only_chomp_refuted.
