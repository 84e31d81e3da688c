(** * PropOrigin: what the compiler says and generates comes from the program.

    Vocabulary: [chomp] (Main: src/main.rs), [occurs], [place], [punct_at],
    [name_in], [type_word], [part_word] (SpecOrigin). *)
From Coq Require Import String.
From Verif Require Import Main OriginFacts PropGen PropReduce PropNibble PropMain Examples.
From Coq Require Import List.
Open Scope list_scope.

Lemma program_marked join fuel ts s e v : parse_program ts = Some s -> convert_program join s = Ok e -> reduce fuel e = Ok v ->
  marked (place join ts) (punct_at "." ts) (punct_at "|" ts) (name_in ts) v.
Proof.
  intros Ep Ec Er. apply parse_program_iff in Ep as [Hw ->].
  pose proof (convert_stmt_marked join (stmt_tokens s) s Hw (fun t H => H) [] e Ec) as M.
  pose proof (marked_reduce _ _ _ _ fuel e M) as M'. now rewrite Er in M'.
Qed.

(** ** C84 *)
(** Every error points into the program: an undeclared name is an identifier
    of it, a wrong call is at a place of it, an error about a concatenation is
    at one of its dots and an error about alternatives at one of its bars. *)
Theorem C84_errors : forall join cs fuel ts x, chomp join cs fuel ts = Err x ->
  match x with
  | MParse => True
  | MConvert y => exists i, occurs (TkIdent i) ts /\ y = UndeclaredName (new_variable (Spanned i))
  | MReduce (CallNotAFunction _ sp) | MReduce (WrongArgCount _ _ sp) => place join ts sp
  | MType (FirstNullable _ sp) | MType (FirstFlastOverlap _ sp _) => punct_at "." ts sp
  | MType (BothNullable _ sp _) | MType (FirstOverlap _ sp _) => punct_at "|" ts sp
  | MType (VariableError _ _ sp o) => place join ts sp /\ exists n, o = Some n /\ name_in ts n
  | MType (UnexpectedCall _ _) | MType (UnexpectedLet _ _) => False
  | MType (UnexpectedLambda sp _) | MType (ExpectedLambda sp _) => place join ts sp
  end.
Proof.
  intros join cs fuel ts x E. pose proof (C54_errors _ _ _ _ _ E) as X. unfold chomp in E. destruct (parse_program ts) as [s |] eqn:Ep; [| injection E as <-; exact Logic.I].
  destruct (convert_program join s) as [e | y | |] eqn:Ec; cbn [res_map_err res_bind] in E; try discriminate E.
  2: { injection E as <-. destruct X as (s' & i & l & -> & Hu & ->). exists i. split; [| reflexivity]. eapply undeclared_stmt_occurs; [rewrite Hu; now left | now intros t]. }
  destruct (reduce fuel e) as [v | y | |] eqn:Er; cbn [res_map_err res_bind] in E; try discriminate E.
  2: { injection E as <-. pose proof Ep as Ep'. apply parse_program_iff in Ep' as [Hw ->].
       pose proof (convert_stmt_marked join (stmt_tokens s) s Hw (fun t H => H) [] e Ec) as M. pose proof (marked_reduce _ _ _ _ fuel e M) as M'. rewrite Er in M'. now destruct y. }
  destruct (typecheck v) as [r | y | |] eqn:Et; cbn [res_map_err res_bind] in E; try discriminate E.
  - destruct (generate cs r) as [[b id] |]; [destruct (emit_code None id b) |]; discriminate E.
  - injection E as <-. pose proof (program_marked _ _ _ _ _ _ Ep Ec Er) as M. unfold typecheck in Et.
    destruct (C20_no_call_or_let _ _ _ _ _ _ _ Er Et) as [U1 U2].
    apply infer_marked with (A := place join ts) (B := punct_at "." ts) (C := punct_at "|" ts) (N := name_in ts) in Et; [| exact M | eapply marked_name; exact M | auto].
    destruct y; try exact Et; [now elim (U1 sp call) | now elim (U2 sp stmt)].
Qed.
Print Assumptions C84_errors.

(** Every identifier of the generated code is a word and a number, and the word
    is a fixed one or made from a name of the program (or from [Ast]). *)
Theorem C84_names : forall join cs fuel ts tab root out, chomp join cs fuel ts = Ok (tab, root, out) ->
  forall en, In en tab -> (forall s, en_name en = TnIdent s -> type_word cs (name_in ts) s) /\ part_word cs (name_in ts) (en_def en).
Proof.
  intros join cs fuel ts tab root out E. destruct (chomp_inv _ _ _ _ _ _ _ E) as (s & e & v & r & Ep & Ec & Er & Et & _ & (b & Hg & ->)).
  pose proof (program_marked _ _ _ _ _ _ Ep Ec Er) as M. pose proof (infer_keeps _ _ _ _ _ Et) as K.
  pose proof (keeps_named _ _ _ _ _ _ _ M (marked_name _ _ _ _ _ M) K) as Hn.
  pose proof (gen_words cs (name_in ts) r bst_default _ _ Hn (Forall_nil _) Hg) as W. intros en Hin. unfold spelled in W. rewrite Forall_forall in W. exact (W en Hin).
Qed.
Print Assumptions C84_names.

(** [match "a" | "a";] fails at its bar, [match !(/x/ x);] names [x], and
    [match y;] names [y]; the program of C53 compiles to types named after it. *)
Definition ex_bar : list token := [kw "match" 1; TkStr (lit "a") 2; pt "|" 3; TkStr (lit "a") 4; pt ";" 5].
Definition ex_knot : list token := [kw "match" 1; pt "!" 2; TkGroup 3 [pt "/" 4; TkIdent (idn "x" 5); pt "/" 6; TkIdent (idn "x" 7)]; pt ";" 8].
Definition ex_free : list token := [kw "match" 1; TkIdent (idn "y" 2); pt ";" 3].
Example C84_ex :
  (exists t e, chomp no_join cs1 20 ex_bar = Err (MType (FirstOverlap t 3 e)))
  /\ (exists sp, chomp no_join cs1 20 ex_knot = Err (MType (VariableError GuardedVariable 0 sp (Some (new_variable (Spanned (idn "x" 7)))))))
  /\ (exists sp, chomp no_join cs1 20 ex_free = Err (MConvert (UndeclaredName (new_variable (Spanned (idn "y" sp))))))
  /\ exists tab root out, chomp no_join cs1 20 ex_tokens = Ok (tab, root, out) /\ In (TnIdent (lit "Pair1")) (map en_name tab).
Proof.
  split; [do 2 eexists; vm_compute; reflexivity |]. split; [eexists; vm_compute; reflexivity |]. split; [eexists; vm_compute; reflexivity |].
  do 3 eexists. split; [vm_compute; reflexivity |]. cbn. tauto.
Qed.
