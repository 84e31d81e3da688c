(** * PropAutoMain: autonibble compiles as chomp does (C79).

    Vocabulary: [auto_main] (AutoMain: autonibble/src/main.rs), [chomp_main]
    (AutoMain: src/main.rs on a text), [auto_tab], [auto_root] (AutoNibble: the
    generated parser of autonibble), [chomp_reads] (Source: the program chomp
    parses), [parses] (PropGen), [has_name], [goal_of], [plain_name] (SpecSame),
    [same_name] (SpecAuto), [same_type_error] (SameFacts), [failure_of] (Erase:
    why a call fails), [stands_for] (PropMain), [own_fixes] (SpecSharing). *)
From Coq Require Import String.
From Verif Require Import Main AutoMain SpecAuto SpecSame PropGen PropReduce PropNibble PropMain PropSame PropAuto AutoSame SpanFront.
From Coq Require Import List Lia.
Open Scope list_scope.

(** ** C79 *)
(** The same code; or the same error, when names are compared as texts and
    positions are not compared; or neither returns. *)
Definition same_output {A} (x : res A auto_error) (y : res A main_error) : Prop :=
  match x, y with
  | Ok c, Ok c' => c = c'
  | Err (ALater a), Err b => map_main_error plain_name a = map_main_error plain_name b
  | Panic, Panic | OutOfFuel, OutOfFuel => True
  | _, _ => False
  end.
(** The same stage fails for the same reason. *)
Definition same_reason (x y : main_error) : Prop :=
  match x, y with
  | MConvert (UndeclaredName n), MConvert (UndeclaredName m) => same_name n m
  | MReduce a, MReduce b => failure_of a = failure_of b
  | MType a, MType b => same_type_error a b
  | _, _ => False
  end.

Lemma auto_main_parsed cs fuel s t : parses auto_tab auto_root s (Ok t) -> exists p, forall p', p <= p' ->
  auto_main cs p' fuel s = res_bind (res_map_err (fun x => ALater (MConvert x)) (auto_convert t)) (fun e => res_map_err ALater (back_end cs fuel e)).
Proof.
  intros [_ [p Hp]]. exists p. intros p' Hp'. unfold auto_main. rewrite (Hp p' Hp'). cbn [res_map_err res_bind]. destruct (auto_convert t) as [e | | |]; cbn [res_map_err res_bind]; try reflexivity. unfold back_end.
  destruct (reduce fuel e) as [v | | |]; cbn [res_map_err res_bind]; try reflexivity. destruct (typecheck v) as [r | | |]; cbn [res_map_err res_bind]; try reflexivity. destruct (generate cs r) as [[b id] |]; [| reflexivity]. now destruct (emit_code None id b).
Qed.
Lemma chomp_main_read join cs fuel s st : chomp_reads s = Some st -> chomp_main join cs fuel s = res_bind (res_map_err MConvert (convert_program join st)) (back_end cs fuel).
Proof. unfold chomp_reads, chomp_main. destruct (text_tokens s) as [ts |]; [| discriminate]. intros H. now rewrite chomp_back_end, H. Qed.

(** On a text both read whose goal has a name, both print the same code. *)
Theorem C79_same_code : forall join cs fuel s t st, parses auto_tab auto_root s (Ok t) -> chomp_reads s = Some st -> has_name (goal_of st) ->
  exists p, forall p', p <= p' -> same_output (auto_main cs p' fuel s) (chomp_main join cs fuel s).
Proof.
  intros join cs fuel s t st P R G. destruct (auto_main_parsed cs fuel s t P) as [p Hp]. exists p. intros p' Hp'. rewrite (Hp p' Hp'), (chomp_main_read join cs fuel s st R).
  pose proof (C75_agree join s t st P R) as A. destruct (auto_convert t) as [e | x | |], (convert_program join st) as [e' | x' | |] eqn:Ec; inversion A as [? ? S | n m S]; subst; cbn [res_map_err res_bind].
  - pose proof (back_end_exact join st cs fuel e e' Ec G S) as H. destruct (back_end cs fuel e), (back_end cs fuel e'); cbn in H |- *; try discriminate H; try exact Logic.I; now injection H.
  - unfold same_output, map_main_error, map_convert_error. now rewrite (same_name_plain _ _ S).
Qed.

(** Whatever the goal: both return code, or the same stage fails for the same
    reason, or both run out of steps. *)
Theorem C79_same_outcome : forall join cs fuel s t st, PropMain.total cs -> parses auto_tab auto_root s (Ok t) -> chomp_reads s = Some st ->
  exists p, forall p', p <= p' ->
  match auto_main cs p' fuel s, chomp_main join cs fuel s with
  | Ok _, Ok _ | OutOfFuel, OutOfFuel => True
  | Err (ALater a), Err b => same_reason a b
  | _, _ => False
  end.
Proof.
  intros join cs fuel s t st Hcs P R. destruct (auto_main_parsed cs fuel s t P) as [p Hp]. exists p. intros p' Hp'. rewrite (Hp p' Hp'), (chomp_main_read join cs fuel s st R).
  pose proof (C75_agree join s t st P R) as A. destruct (auto_convert t) as [e | x | |], (convert_program join st) as [e' | x' | |] eqn:Ec; inversion A as [? ? S | n m S]; subst; cbn [res_map_err res_bind]; [| exact S].
  apply same_program_erase in S. unfold back_end. pose proof (reduce_same fuel e e' S) as Hr. destruct (reduce fuel e) as [v | | |] eqn:Ev, (reduce fuel e') as [v' | | |] eqn:Ev'; cbn in Hr |- *; try contradiction; auto. 2: { now apply C45_never_panics in Ev. }
  pose proof (typecheck_same v v' Hr) as Ht. assert (K : forall v r, typecheck v = Ok r -> exists b root x, generate cs r = Some (b, root) /\ emit_code None root b = Some x).
  { intros u r Et. destruct (C36_no_panic cs u r Et) as [(nm & _ & [Hn | Hn]) | H]; [now apply (Hcs (name_text nm)) in Hn .. | exact H]. }
  destruct (typecheck v) as [r | | |] eqn:Et, (typecheck v') as [r' | | |] eqn:Et'; cbn in Ht |- *; try contradiction; auto.
  - destruct (K _ _ Et) as (b & root & y & -> & ->), (K _ _ Et') as (b' & root' & y' & -> & ->). exact Logic.I.
  - destruct (typecheck_total v) as [T1 T2]. congruence.
Qed.
(** And the parsers they print return the same on every input. *)
Theorem C79_same_parser : forall join cs cs' p fuel fuel' s t st g tab root out tab' root' out', parses auto_tab auto_root s (Ok t) -> chomp_reads s = Some st ->
  auto_main cs p fuel s = Ok (tab, root, out) -> chomp_main join cs' fuel' s = Ok (tab', root', out') -> stands_for st g -> own_fixes g ->
  forall input x, parses tab root input x <-> parses tab' root' input x.
Proof.
  intros join cs cs' p fuel fuel' s t st g tab root out tab' root' out' P R Ea Ec Hg Ho.
  assert (Ea' : exists e v r, auto_convert t = Ok e /\ reduce fuel e = Ok v /\ compiles cs v r tab root).
  { unfold auto_main in Ea. destruct (GenSem.parse_str auto_tab p auto_root s) as [t' | | |] eqn:Ep; cbn [res_map_err res_bind] in Ea; try discriminate Ea. pose proof (parses_fun _ _ _ _ _ P (auto_run _ _ _ Ep)) as E. injection E as ->.
    destruct (auto_convert t') as [e | | |]; cbn [res_map_err res_bind] in Ea; try discriminate Ea. destruct (reduce fuel e) as [v | | |] eqn:Er; cbn [res_map_err res_bind] in Ea; try discriminate Ea. destruct (typecheck v) as [r | | |] eqn:Et; cbn [res_map_err res_bind] in Ea; try discriminate Ea.
    destruct (generate cs r) as [[b id] |] eqn:Eg; [| discriminate Ea]. destruct (emit_code None id b) eqn:Ee; [| discriminate Ea]. injection Ea as <- <- <-. exists e, v, r. split; [reflexivity |]. split; [exact Er |]. split; [exact Et |]. eauto. }
  destruct Ea' as (e & v & r & Hc & Hr & C). unfold chomp_main, chomp_reads in *. destruct (text_tokens s) as [ts |] eqn:Ets; [| discriminate R].
  destruct (chomp_inv _ _ _ _ _ _ _ Ec) as (st' & e' & v' & r' & Ep & Ecv & Er & Et & C'). rewrite R in Ep. injection Ep as <-.
  assert (R' : chomp_reads s = Some st) by (unfold chomp_reads; now rewrite Ets). pose proof (C75_agree join s t st P R') as A. rewrite Hc, Ecv in A. inversion A as [? ? S | ? ? S]; subst. apply same_program_erase in S.
  destruct Hg as (e0 & w & Hm & Hst & Hl). apply parse_program_iff in R as [Hw ->]. assert (Hm' : means_stmt [] st (erase e')) by (apply (C47_scoping join st _ Hw); eauto). pose proof (means_stmt_fun _ _ _ _ Hm Hm') as ->.
  destruct (C43_unique e' w g Hst Hl) as (_ & U & _). destruct (U _ _ Er) as [_ Hg']. rewrite <- S in Hst. destruct (C43_unique e w g Hst Hl) as (_ & U' & _). destruct (U' _ _ Hr) as [_ Hg].
  assert (Sh : forall u q, typecheck u = Ok q -> gram_of u = Some g -> sharing_ok q). { intros u q Hq Hu. apply own_sharing. destruct (typecheck_typed u q Hq) as (g1 & t1 & Hg1 & Hr1 & _). congruence. }
  apply (C77_same_parser _ _ _ _ _ _ _ _ _ _ _ C C' Hg Hg'); [apply (Sh v); [apply C | exact Hg] | apply (Sh v'); [apply C' | exact Hg']].
Qed.
(** A goal without a name is called [Ast] by chomp only, and the code differs. *)
Notation unnamed := (lit "match ""a"";").
Theorem C79_unnamed_refuted : exists t st c c', parses auto_tab auto_root unnamed (Ok t) /\ chomp_reads unnamed = Some st /\ auto_main heck 100 10 unnamed = Ok c /\ chomp_main no_join heck 10 unnamed = Ok c' /\ c <> c'.
Proof.
  destruct (GenSem.parse_str auto_tab 100 auto_root unnamed) as [t | | |] eqn:E; [| vm_compute in E; discriminate E ..]. exists t. do 3 eexists. split; [exact (auto_run _ _ _ E) |]. clear E.
  split; [vm_compute; reflexivity |]. split; [vm_compute; reflexivity |]. split; [vm_compute; reflexivity |]. discriminate.
Qed.
Print Assumptions C79_same_code.
Print Assumptions C79_same_outcome.
Print Assumptions C79_same_parser.
Print Assumptions C79_unnamed_refuted.
(** [let x = "a" . "b"; match x;] *)
Notation named_text := (lit "let x = ""a"" . ""b""; match x;").
Example C79_ex : exists t st c, parses auto_tab auto_root named_text (Ok t) /\ chomp_reads named_text = Some st /\ has_name (goal_of st) /\ auto_main heck 100 10 named_text = Ok c
  /\ chomp_main no_join heck 10 named_text = Ok c.
Proof.
  destruct (GenSem.parse_str auto_tab 100 auto_root named_text) as [t | | |] eqn:E; [| vm_compute in E; discriminate E ..]. exists t. do 2 eexists. split; [exact (auto_run _ _ _ E) |]. clear E.
  split; [vm_compute; reflexivity |]. split; [cbn [goal_of]; repeat constructor |]. split; vm_compute; reflexivity.
Qed.
(** An undeclared name, in both. *)
Notation stray_text := (lit "match y;").
Example C79_ex_error : exists t st n n', parses auto_tab auto_root stray_text (Ok t) /\ chomp_reads stray_text = Some st /\ auto_main heck 100 10 stray_text = Err (ALater (MConvert (UndeclaredName n)))
  /\ chomp_main no_join heck 10 stray_text = Err (MConvert (UndeclaredName n')).
Proof.
  destruct (GenSem.parse_str auto_tab 100 auto_root stray_text) as [t | | |] eqn:E; [| vm_compute in E; discriminate E ..]. exists t. do 3 eexists. split; [exact (auto_run _ _ _ E) |]. clear E.
  split; [vm_compute; reflexivity |]. split; vm_compute; reflexivity.
Qed.
