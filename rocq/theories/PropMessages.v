(** * PropMessages: what the compiler tells its user.

    Vocabulary: [main], [nibble_macro] (Messages: src/main.rs,
    chomp-macro/src/lib.rs), [complaint], [sentence], [wrong], [somewhere],
    [shows_name] (SpecMessages), [stands_for] (PropMain), [fails] (SpecBeta). *)
From Coq Require Import String.
From Verif Require Import MessageFacts OriginFacts PropGen PropReduce PropNibble PropMain PropDefect PropOrigin Examples.
From Coq Require Import List.
Open Scope list_scope.

(** When a complaint about the program [s] is true.  The complaints about
    characters are judged for grammars all of whose parts have a word; see
    C80. *)
Definition holds (s : stmt) (c : complaint) : Prop :=
  match c with
  | Undeclared shown => exists i l, undeclared_stmt [] s = i :: l /\ shown = written i
  | NotFunction => exists e v, means_stmt [] s e /\ fails e (NotAFunction v) /\ is_lam v = false
  | Arity takes supplied => takes <> supplied /\ exists e b args, means_stmt [] s e /\ fails e (WrongArity takes b args) /\ List.length args = supplied
  | StartEmpty | TwoEmpty => forall g, stands_for s g -> somewhere (wrong c) [] g
  | NextUnclear | SameStart => forall g, stands_for s g -> productive [] g -> somewhere (wrong c) [] g
  | LeftRecursive shown | Unbound shown => shows_name (stmt_tokens s) shown /\ forall g, stands_for s g -> somewhere (wrong c) [] g
  | FunctionLeft | FixOfNothing => forall g, ~ stands_for s g
  end.

(** ** C85 *)
(** Any error but one of syntax is one of the sentences, and it is true. *)
Theorem C85_true : forall join cs syn_error fuel ts x, chomp join cs fuel ts = Err x -> x <> MParse ->
  exists s c, ts = stmt_tokens s /\ main_message syn_error ts x = sentence c /\ holds s c.
Proof.
  intros join cs se fuel ts x E Hx. pose proof (C84_errors _ _ _ _ _ E) as O. pose proof (C54_errors _ _ _ _ _ E) as X.
  unfold chomp in E. destruct (parse_program ts) as [s |] eqn:Ep; [| injection E as <-; now elim Hx].
  apply parse_program_iff in Ep as [Hw ->]. destruct (convert_program join s) as [e | y | |] eqn:Ec; cbn [res_map_err res_bind] in E; try discriminate E.
  2: { injection E as <-. pose proof (C48_undeclared join s Hw) as Hu. destruct (undeclared_stmt [] s) as [| i l] eqn:Eu; [destruct Hu as [? Hu]; congruence |].
       assert (y = UndeclaredName (new_variable (Spanned i))) as -> by congruence.
       exists s, (Undeclared (written i)). split; [reflexivity |]. split; [reflexivity |]. cbn [holds]. eauto. }
  assert (Hm : means_stmt [] s (erase e)) by (apply (C47_scoping join s _ Hw); eauto).
  destruct (reduce fuel e) as [v | y | |] eqn:Er; cbn [res_map_err res_bind] in E; try discriminate E.
  2: { injection E as <-. assert (F : fails (erase e) (failure_of y)) by (apply (C45_errors e); eauto). pose proof (C45_error_values _ _ _ Er) as V.
       destruct y as [on sp | l args sp].
       - exists s, NotFunction. repeat split. exists (erase e), (erase on). auto.
       - destruct V as (a & ns & b & -> & Hn). exists s, (Arity (List.length ns) (List.length args)). split; [reflexivity |].
         split; [exact (arity_sentence (ELam a ns b) args sp Hn) |]. split; [exact Hn |]. cbn [failure_of] in F. exists (erase e). do 2 eexists. split; [exact Hm |]. split; [exact F | apply map_length]. }
  destruct (typecheck v) as [r | y | |] eqn:Et; cbn [res_map_err res_bind] in E; try discriminate E.
  { destruct (generate cs r) as [[b id] |]; [destruct (emit_code None id b) |]; discriminate E. }
  injection E as <-.
  assert (G : forall g, stands_for s g -> gram_of v = Some g).
  { intros g (e' & w & Hm' & Hst & Hl). pose proof (means_stmt_fun _ _ _ _ Hm Hm') as <-. destruct (C43_unique _ w g Hst Hl) as (_ & U & _). now destruct (U fuel v Er). }
  assert (K : forall c, type_complaint y = Some c -> forall g, stands_for s g -> (about_sets y -> productive [] g) -> somewhere (wrong c) [] g).
  { intros c Hc g Hg Hp. eapply explains_wrong; [eapply typecheck_explains; [exact Et | apply G, Hg | exact Hp] | apply G, Hg | exact Hc]. }
  assert (N : match y with UnexpectedLambda _ _ | ExpectedLambda _ _ => forall g, ~ stands_for s g | _ => True end).
  { destruct y; auto; intros g Hg; exact (explains_not_function _ _ _ _ (typecheck_explains _ _ _ Et (G g Hg) (fun A => match A with end))). }
  exists s. destruct y as [t p | ty p t | ty p t | ty p t | inner i p o | p c | p c | p c | p c]; cbn iota in O.
  - exists StartEmpty. repeat split. cbn [holds]. intros g Hg. now apply K.
  - exists NextUnclear. repeat split. cbn [holds]. intros g Hg Hp. now apply K.
  - exists TwoEmpty. repeat split. cbn [holds]. intros g Hg. now apply K.
  - exists SameStart. repeat split. cbn [holds]. intros g Hg Hp. now apply K.
  - destruct O as (_ & n & -> & Hn).
    assert (Hs : shows_name (stmt_tokens s) (name_display n)).
    { unfold name_in in Hn. unfold shows_name, name_display. destruct (n_content n) as [j | u]; [left; exists j; now split | right; exact Hn]. }
    destruct inner.
    + exists (Unbound (name_display n)). repeat split; [exact Hs |]. intros g Hg. now apply K.
    + exists (LeftRecursive (name_display n)). repeat split; [exact Hs |]. intros g Hg. now apply K.
  - destruct O.
  - exists FunctionLeft. repeat split. exact N.
  - destruct O.
  - exists FixOfNothing. repeat split. exact N.
Qed.
Print Assumptions C85_true.

(** The sentence determines the complaint: which defect, which name, which
    numbers. *)
Theorem C85_distinct : forall c c', sentence c = sentence c' -> c = c'.
Proof. exact sentence_inj. Qed.
Print Assumptions C85_distinct.

(** The program ends in one of three ways: the code alone and status 0, one
    line of error alone and status 1, or a panic; no panic when every name can
    be converted, and nothing is shown while it runs. *)
Theorem C85_exit : forall join cs syn_error fuel ts o, main join cs syn_error fuel ts = Some o ->
  (exists c, o = Outcome (Some c) None 0 /\ chomp join cs fuel ts = Ok c)
  \/ (exists x, o = Outcome None (Some (main_message syn_error ts x ++ [10%N])) 1 /\ chomp join cs fuel ts = Err x)
  \/ (o = Outcome None None 101 /\ chomp join cs fuel ts = Panic /\ ~ total cs).
Proof.
  intros join cs se fuel ts o E. unfold main in E. destruct (chomp join cs fuel ts) as [c | x | |] eqn:Ec; try discriminate E; injection E as <-; [eauto | eauto |].
  right. right. repeat split; auto. intros T. exact (C54_no_panic _ _ _ _ T Ec).
Qed.
Print Assumptions C85_exit.

(** The macro and the program agree: the same code, or the same text as an
    error of the compiler at a place of the program. *)
Theorem C85_macro : forall join cs syn_error fuel ts,
  match nibble_macro join cs syn_error fuel ts with
  | Ok (Code c) => main join cs syn_error fuel ts = Some (Outcome (Some c) None 0)
  | Ok (CompileError sp msg) => main join cs syn_error fuel ts = Some (Outcome None (Some (msg ++ [10%N])) 1)
      /\ (parse_program ts <> None -> place join ts sp)
  | Err x => False
  | Panic => main join cs syn_error fuel ts = Some (Outcome None None 101)
  | OutOfFuel => main join cs syn_error fuel ts = None
  end.
Proof.
  intros join cs se fuel ts. unfold main. pose proof (C84_errors join cs fuel ts) as O. unfold nibble_macro. unfold chomp in *.
  destruct (parse_program ts) as [s |]; cbn [res_bind] in *.
  2: { destruct (se ts) as [sp m] eqn:Em. cbn [main_message]. rewrite Em. split; [reflexivity | intros H; now elim H]. }
  destruct (convert_program join s) as [e | y | |]; cbn [res_map_err res_bind] in *; auto.
  2: { split; [reflexivity | intros _]. destruct (O _ eq_refl) as (i & Hi & ->). left. now exists (TkIdent i). }
  destruct (reduce fuel e) as [v | y | |]; cbn [res_map_err res_bind] in *; auto.
  2: { split; [reflexivity | intros _]. specialize (O _ eq_refl). now destruct y. }
  destruct (typecheck v) as [r | y | |]; cbn [res_map_err res_bind] in *; auto.
  2: { split; [reflexivity | intros _]. specialize (O _ eq_refl). destruct y; cbn [type_span]; try (now destruct O); try exact O; left; (eexists; split; [exact O | reflexivity]). }
  destruct (generate cs r) as [[b id] |]; auto. destruct (emit_code None id b); auto.
Qed.
Print Assumptions C85_macro.

(** Every sentence is shown for some program. *)
Definition goal (l : list token) : list token := kw "match" 1 :: l ++ [pt ";" 99].
Definition id_at (s : string) (n : span) : token := TkIdent (idn s n).
Definition st (s : string) (n : span) : token := TkStr (lit s) n.
Definition shows (ts : list token) (s : string) : Prop := main no_join cs1 (fun _ => (0%N, [])) 40 ts = Some (Outcome None (Some (lit s ++ [10%N])) 1).
Example C85_ex :
  shows (goal [id_at "y" 2]) "undeclared name: `y`"
  /\ shows (goal [st "a" 2; st "b" 3]) "call expected a function"
  /\ shows ([kw "let" 80; id_at "f" 81; id_at "x" 82; pt "=" 83; id_at "x" 84; pt ";" 85] ++ goal [id_at "f" 2; st "a" 3; st "b" 4]) "this function takes 1 argument but 2 were supplied"
  /\ shows ([kw "let" 80; id_at "f" 81; id_at "x" 82; id_at "z" 83; pt "=" 84; id_at "x" 85; pt ";" 86] ++ goal [id_at "f" 2; st "a" 3]) "this function takes 2 arguments but 1 was supplied"
  /\ shows (goal [kw "_" 2; pt "." 3; st "a" 4]) "first part of concatenation is nullable"
  /\ shows (goal [st "a" 2; pt "." 3; TkGroup 4 [kw "_" 5; pt "|" 6; st "b" 7]; pt "." 8; st "b" 9]) "first set overlaps with preceding flast set"
  /\ shows (goal [kw "_" 2; pt "|" 3; kw "_" 4]) "both branches are nullable"
  /\ shows (goal [st "a" 2; pt "|" 3; st "a" 4]) "first sets of both branches overlap"
  /\ shows (goal [pt "!" 2; TkGroup 3 [pt "/" 4; id_at "x" 5; pt "/" 6; id_at "x" 7]]) "usage of guarded variable: `x`"
  /\ shows (goal [pt "!" 2; TkGroup 3 [pt "/" 4; id_at "x" 5; id_at "z" 8; pt "/" 6; id_at "x" 7]]) "unbound variable: `x`"
  /\ shows (goal [TkGroup 3 [pt "/" 4; id_at "x" 5; pt "/" 6; id_at "x" 7]]) "unexpected lambda"
  /\ shows (goal [pt "!" 2; st "a" 3]) "expected a lambda expression".
Proof. unfold shows, goal, id_at, st. repeat (split; [vm_compute; reflexivity |]). vm_compute; reflexivity. Qed.
