(** * PropCase: from the names a program is written with to the Rust program it
    becomes.

    Vocabulary: [chomp] (Main), [heck] (Source: the case conversions), [code_items]
    (RustMain: the code, written out), [well_formed], [rparses], [rprint] (SpecRust,
    Rust: rules and meaning of the items), [stmt_idents], [letters], [clean],
    [speakable] (SpecCase), [stands_for] (PropMain), [own_fixes] (SpecSharing). *)
From Coq Require Import String NArith.
From Verif Require Import RustMain SpecRust SpecCase CaseFacts OriginFacts InferMore PropMain PropGen PropNibble PropOrigin PropReduce PropTyping ReduceMore PropRust SpecTable SpecSharing ShareFacts.
From Verif Require Import ConvertFacts SpecTyping SpecLang.
From Coq Require Import List Lia.
Open Scope list_scope.

(** The names the generator sees are names of the program, or [Ast]. *)
Lemma chomp_names join cs fuel ts s c : parse_program ts = Some s -> chomp join cs fuel ts = Ok c ->
  exists e v r b root, convert_program join s = Ok e /\ reduce fuel e = Ok v /\ fst c = (data b, root) /\ emits cs v r b root None (lit "Ast") (code_items c)
    /\ Forall (named_in (stmt_idents s)) (t_names r).
Proof.
  intros Ep E. unfold chomp in E. rewrite Ep in E. destruct (convert_program join s) as [e | | |] eqn:Ec; try discriminate E.
  cbn [res_map_err res_bind] in E. destruct (reduce fuel e) as [v | | |] eqn:Er; try discriminate E. cbn [res_map_err res_bind] in E.
  destruct (typecheck v) as [r | | |] eqn:Et; try discriminate E. cbn [res_map_err res_bind] in E.
  destruct (generate cs r) as [[b root] |] eqn:Eg; try discriminate E. destruct (emit_code None root b) as [[order [alias t]] |] eqn:Ee; try discriminate E.
  injection E as <-. exists e, v, r, b, root. split; [reflexivity |]. split; [exact Er |]. split; [reflexivity |]. split.
  - destruct (C31_emitted cs v r b root Et Eg) as (order' & t' & Ho & _). rewrite Ee in Ho. injection Ho as <- -> <-.
    split; [exact Et |]. split; [exact Eg |]. unfold emit_items. rewrite Ee. split; reflexivity.
  - pose proof (program_named join (stmt_idents s) fuel s e v (fun i H => H) Ec Er) as M. pose proof (infer_keeps _ _ _ _ _ Et) as K.
    exact (keeps_named _ _ _ _ _ _ _ M (marked_name _ _ _ _ _ M) K).
Qed.
Lemma ast_clean : clean (lit "Ast").
Proof.
  split; [| vm_compute; intuition discriminate]. intros u x E. change (letters (lit "Ast")) with ([97; 115] ++ [116])%N in E. apply app_inj_tail in E as [_ <-]. lia.
Qed.
Lemma ast_speakable : speakable (lit "Ast").
Proof. split; [exists 97%N, [115; 116]%N; split; [reflexivity | lia] |]. change (letters (lit "Ast")) with [97; 115; 116]%N. constructor; [lia |]. constructor; [lia |]. constructor; [lia | constructor]. Qed.
Lemma named_text_all (P : rstr -> Prop) l n : (forall i, In i l -> P (id_sym i)) -> P (lit "Ast") -> named_in l n -> P (name_text n).
Proof. intros H A. unfold named_in, name_text, content_hash_key. destruct (n_content n) as [i | w]; [apply H | now intros ->]. Qed.

(** ** C95 *)
(** If no name ends in a digit or is [lit], [cat], [alt], [fix], [branch] or
    [part] (in any case, with any underscores), the code follows the rules of
    Rust. *)
Theorem C95_well_formed : forall join fuel ts s c, parse_program ts = Some s -> chomp join heck fuel ts = Ok c ->
  (forall i, In i (stmt_idents s) -> clean (id_sym i)) -> well_formed (code_items c).
Proof.
  intros join fuel ts s c Ep E Hc. destruct (chomp_names _ _ _ _ _ _ Ep E) as (e & v & r & b & root & _ & _ & _ & He & Hn). rewrite Forall_forall in Hn.
  apply (C94_well_formed heck v r b root _ He).
  - intros n x Hin Ex. apply (clean_camel (name_text n)); [| exact Ex]. apply (named_text_all clean (stmt_idents s)); auto using ast_clean.
  - intros n x Hin Ex. apply (clean_snake (name_text n)); [| exact Ex]. apply (named_text_all clean (stmt_idents s)); auto using ast_clean.
Qed.

(** What such a program prints is a parser: [Ast::parse_str] returns on every
    input, it accepts exactly the language of the grammar, and what it returns
    prints as the input. *)
Theorem C95_parser : forall join fuel ts s c g, parse_program ts = Some s -> chomp join heck fuel ts = Ok c ->
  (forall i, In i (stmt_idents s) -> clean (id_sym i)) -> stands_for s g -> own_fixes g ->
  (forall input, exists x, rparses (code_items c) (TnIdent (lit "Ast")) input x)
  /\ (forall input, (exists v, rparses (code_items c) (TnIdent (lit "Ast")) input (Ok v)) <-> language g input)
  /\ (forall input v, rparses (code_items c) (TnIdent (lit "Ast")) input (Ok v) -> rprint (code_items c) v = Some input).
Proof.
  intros join fuel ts s c g Ep E Hc Hg Ho. pose proof (C95_well_formed _ _ _ _ _ Ep E Hc) as W.
  destruct (chomp_names _ _ _ _ _ _ Ep E) as (e & v & r & b & root & Ec & Er & Ef & He & _). destruct c as [[tab rt] out]. cbn [fst] in Ef. injection Ef as -> ->.
  destruct (C54_sound _ _ _ _ _ _ _ E) as (s' & g' & t' & Hts & Hw & Hs & Hu & Ht & Hret & Hdec).
  assert (Es : s' = s). { subst ts. rewrite (proj2 (C53_parse_print _ s') (conj Hw eq_refl)) in Ep. congruence. }
  subst s'. assert (Eg : g = g') by (apply Hu; exact Hg). subst g'.
  destruct He as (Et & Hgen & He3). assert (He : emits heck v r b root None (lit "Ast") (code_items (data b, root, out))) by (split; [exact Et | split; assumption]). clear He3.
  destruct (reduce_stands join fuel s e v r Hw Ec Er Et) as (g' & t'' & Hs' & Hgv & Hgr & _). assert (Eg : g' = g) by (apply Hu; exact Hs'). rewrite Eg in *. clear Eg.
  assert (Hsh : sharing_ok r) by (apply own_sharing; now rewrite Hgr).
  split; [| split].
  - intros input. destruct (Hret input) as [x Hx]. destruct (C94_runs _ _ _ _ _ _ _ _ _ _ He W Hx) as (y & Hy & _). eauto.
  - intros input. exact (C94_decides _ _ _ _ _ _ _ _ _ He W Hgv Hsh input).
  - intros input w Hw'. exact (C94_prints _ _ _ _ _ _ _ _ _ _ He W Hw').
Qed.

(** The same from the text of the program. *)
Corollary C95_text : forall join fuel text s c g, chomp_reads text = Some s -> chomp_main join heck fuel text = Ok c ->
  (forall i, In i (stmt_idents s) -> clean (id_sym i)) -> stands_for s g -> own_fixes g ->
  well_formed (code_items c)
  /\ forall input, (exists v, rparses (code_items c) (TnIdent (lit "Ast")) input (Ok v)) <-> language g input.
Proof.
  intros join fuel text s c g R E Hc Hg Ho. unfold chomp_reads, chomp_main in *. destruct (text_tokens text) as [ts |]; [| discriminate R].
  split; [exact (C95_well_formed _ _ _ _ _ R E Hc) | exact (proj1 (proj2 (C95_parser _ _ _ _ _ _ R E Hc Hg Ho)))].
Qed.

(** If every name has a letter before its first digit, the generator does not
    panic... *)
Theorem C95_no_panic : forall join fuel ts, (forall s, parse_program ts = Some s -> forall i, In i (stmt_idents s) -> speakable (id_sym i)) ->
  chomp join heck fuel ts <> Panic.
Proof.
  intros join fuel ts Hsp E. unfold chomp in E. destruct (parse_program ts) as [s |] eqn:Ep; [| discriminate E]. specialize (Hsp s eq_refl).
  apply parse_program_iff in Ep as [Hw ->]. pose proof (C48_undeclared join s Hw) as Hu.
  destruct (convert_program join s) as [e | y | |] eqn:Ec; cbn [res_map_err res_bind] in E; try discriminate E.
  2: { destruct (undeclared_stmt [] s); [destruct Hu as [? Hu] |]; discriminate Hu. }
  destruct (reduce fuel e) as [v | y | |] eqn:Er; cbn [res_map_err res_bind] in E; try discriminate E.
  2: { now apply C45_never_panics in Er. }
  destruct (typecheck v) as [r | y | |] eqn:Et; cbn [res_map_err res_bind] in E; try discriminate E.
  2: { destruct (C13_program_bound v) as [[r Hr] | [x Hx]]; congruence. }
  pose proof (program_named join (stmt_idents s) fuel s e v (fun i H => H) Ec Er) as M. pose proof (infer_keeps _ _ _ _ _ Et) as K.
  pose proof (keeps_named _ _ _ _ _ _ _ M (marked_name _ _ _ _ _ M) K) as Hn. rewrite Forall_forall in Hn.
  destruct (C36_no_panic heck v r Et) as [(n & Hin & Hx) | (b & root & x & Eg & Ee)].
  - assert (Hs : speakable (name_text n)) by (apply (named_text_all speakable (stmt_idents s)); auto using ast_speakable).
    destruct Hx as [Hx | Hx]; [exact (speakable_camel _ Hs Hx) | exact (speakable_snake _ Hs Hx)].
  - rewrite Eg, Ee in E. discriminate E.
Qed.
(** ... so typable programs compile. *)
Theorem C95_compiles : forall join s g t, wf_stmt s -> stands_for s g -> typed [] g t -> (forall i, In i (stmt_idents s) -> speakable (id_sym i)) ->
  exists fuel, forall fuel', fuel <= fuel' -> exists c, chomp join heck fuel' (stmt_tokens s) = Ok c.
Proof.
  intros join s g t Hw Hs Ht Hsp. set (k := Casing (fun w => Some w) (fun w => Some w)). assert (Htot : PropMain.total k) by (intros w; split; discriminate).
  destruct (C54_complete join k s g t Htot Hw Hs Ht) as [n Hn]. exists n. intros m Hm. destruct (Hn m Hm) as [c Hc].
  pose proof (C95_no_panic join m (stmt_tokens s)) as Hp. rewrite (proj2 (C53_parse_print _ s) (conj Hw eq_refl)) in Hp. specialize (Hp ltac:(intros s' [= <-]; exact Hsp)).
  unfold chomp in *. destruct (parse_program (stmt_tokens s)); [| discriminate Hc]. destruct (convert_program join s0) as [e | | |]; cbn [res_map_err res_bind] in *; try discriminate Hc.
  destruct (reduce m e) as [v | | |]; cbn [res_map_err res_bind] in *; try discriminate Hc. destruct (typecheck v) as [r | | |]; cbn [res_map_err res_bind] in *; try discriminate Hc.
  destruct (generate heck r) as [[b id] |]; [| now elim Hp]. destruct (emit_code None id b); [eauto | now elim Hp].
Qed.

(** Both conditions are needed.  [match "a" . ("b" : Part);] compiles to a
    struct with two fields [part1]. *)
Notation part_text := (lit "match ""a"" . (""b"" : Part);").
Theorem C95_clean_refuted : exists s c, chomp_reads part_text = Some s /\ chomp_main no_join heck 10 part_text = Ok c /\ ~ well_formed (code_items c).
Proof.
  do 2 eexists. split; [vm_compute; reflexivity |]. split; [vm_compute; reflexivity |]. intros H.
  assert (K : NoDup [lit "part1"; lit "part1"]).
  { eapply (wf_shapes _ H (lit "Ast1") (SFields [(lit "part1", TnIdent (lit "Lit1")); (lit "part1", TnIdent (lit "Part1"))])). vm_compute. auto 10. }
  inversion K as [| ? ? K1 _]. apply K1. left. reflexivity.
Qed.
(** [let _1 = "a"; match _1;] and [match "a" : _;] panic, though their grammar
    is a literal. *)
Notation digit_text := (lit "let _1 = ""a""; match _1;").
Notation blank_text := (lit "match ""a"" : _;").
Theorem C95_panic_refuted : (exists s, chomp_reads digit_text = Some s) /\ chomp_main no_join heck 10 digit_text = Panic
  /\ (exists s, chomp_reads blank_text = Some s) /\ chomp_main no_join heck 10 blank_text = Panic.
Proof. split; [eexists; vm_compute; reflexivity |]. split; [vm_compute; reflexivity |]. split; [eexists; vm_compute; reflexivity |]. vm_compute; reflexivity. Qed.
(** heck's words: they end at an underscore, before a capital after a small
    letter, and before the last capital of several. *)
Example C95_ex_words : map (camel heck) [lit "HTTPServer"; lit "foo_bar2Baz"; lit "aB"; lit "ABc"; lit "x1y"] = map (fun s => Some (lit s)) ["HttpServer"; "FooBar2Baz"; "AB"; "ABc"; "X1y"]%string
  /\ map (snake heck) [lit "HTTPServer"; lit "foo_bar2Baz"; lit "aB"; lit "ABc"; lit "x1y"] = map (fun s => Some (lit s)) ["http_server"; "foo_bar2_baz"; "a_b"; "a_bc"; "x1y"]%string.
Proof. split; reflexivity. Qed.
Print Assumptions C95_well_formed.
Print Assumptions C95_parser.
Print Assumptions C95_text.
Print Assumptions C95_no_panic.
Print Assumptions C95_compiles.
Print Assumptions C95_clean_refuted.
Print Assumptions C95_panic_refuted.

(** [let key_word = "a"; match !(/recStep/ key_word . (_ : Stop | recStep));]:
    its names are clean and speakable. *)
Notation loop_text := (lit "let key_word = ""a""; match !(/recStep/ key_word . (_ : Stop | recStep));").
Lemma clean_dec (s : rstr) : match rev (letters s) with x :: _ => negb (N.leb 48 x && N.leb x 57) | [] => true end = true ->
  existsb (rstr_eqb (letters s)) [lit "lit"; lit "cat"; lit "alt"; lit "fix"; lit "branch"; lit "part"] = false -> clean s.
Proof.
  intros H1 H2. split.
  - intros u x E Hx. rewrite E, rev_app_distr in H1. cbn [rev app] in H1. destruct (N.leb_spec 48 x), (N.leb_spec x 57); try lia; discriminate H1.
  - intros Hi. enough (existsb (rstr_eqb (letters s)) [lit "lit"; lit "cat"; lit "alt"; lit "fix"; lit "branch"; lit "part"] = true) by congruence.
    apply existsb_exists. exists (letters s). split; [exact Hi | apply rstr_eqb_refl].
Qed.
Lemma speakable_dec (s : rstr) : match letters s with x :: _ => (N.leb 97 x && N.leb x 122)%bool | [] => false end = true ->
  forallb (fun c => (N.leb 97 c && N.leb c 122 || N.leb 48 c && N.leb c 57)%bool) (letters s) = true -> speakable s.
Proof.
  intros H1 H2. split.
  - destruct (letters s) as [| c w]; [discriminate H1 |]. exists c, w. split; [reflexivity |]. destruct (N.leb_spec 97 c), (N.leb_spec c 122); try discriminate H1. lia.
  - apply Forall_forall. intros c Hc. rewrite forallb_forall in H2. specialize (H2 c Hc).
    destruct (N.leb_spec 97 c), (N.leb_spec c 122), (N.leb_spec 48 c), (N.leb_spec c 57); try discriminate H2; lia.
Qed.
Notation loop_gram := (GFix (GCat [GLit (lit "a"); GAlt [GEps; GVar 0]])).
Example C95_ex : exists s c, chomp_reads loop_text = Some s /\ chomp_main no_join heck 20 loop_text = Ok c
  /\ (forall i, In i (stmt_idents s) -> clean (id_sym i)) /\ (forall i, In i (stmt_idents s) -> speakable (id_sym i))
  /\ stands_for s loop_gram /\ own_fixes loop_gram /\ language loop_gram (lit "aaa")
  /\ find_type (code_items c) (lit "Ast") = Some (SAlias (TnIdent (lit "Ast1"))) /\ find_type (code_items c) (lit "KeyWord1") = Some SUnit.
Proof.
  destruct (chomp_reads loop_text) as [s |] eqn:Es; [| vm_compute in Es; discriminate Es]. exists s.
  assert (Ep : exists ts, parse_program ts = Some s) by (unfold chomp_reads in Es; destruct (text_tokens loop_text); [eauto | discriminate Es]).
  assert (Hw : wf_stmt s) by (destruct Ep as [ts Ep]; apply parse_program_iff in Ep; apply Ep).
  assert (E : Some s = chomp_reads loop_text) by congruence. vm_compute in E. injection E as E.
  assert (Hid : map id_sym (stmt_idents s) = [lit "key_word"; lit "recStep"; lit "key_word"; lit "Stop"; lit "recStep"]) by (rewrite E; reflexivity).
  eexists. split; [reflexivity |]. split; [vm_compute; reflexivity |].
  split; [| split; [| split; [| split; [| split]]]].
  - intros i Hi. apply (in_map id_sym) in Hi. rewrite Hid in Hi. destruct Hi as [<- | [<- | [<- | [<- | [<- | []]]]]]; apply clean_dec; vm_compute; reflexivity.
  - intros i Hi. apply (in_map id_sym) in Hi. rewrite Hid in Hi. destruct Hi as [<- | [<- | [<- | [<- | [<- | []]]]]]; apply speakable_dec; vm_compute; reflexivity.
  - assert (Hc : exists e, convert_program no_join s = Ok e) by (rewrite E; eexists; vm_compute; reflexivity). destruct Hc as [e Ec].
    exists (erase e). assert (Hr : exists v, reduce 20 e = Ok v /\ lgram (erase v) = Some loop_gram).
    { assert (E' : Ok e = convert_program no_join s) by congruence. rewrite E in E'. vm_compute in E'. match type of E' with Ok _ = Ok ?x => assert (X : e = x) by congruence end. rewrite X. eexists. split; vm_compute; reflexivity. }
    destruct Hr as (v & Er & Hl). exists (erase v). split; [apply (C47_scoping no_join s _ Hw); eauto |]. split; [eapply C40_sound; eassumption | exact Hl].
  - cbn. repeat split; auto; lia.
  - exists 3. cbn [Nat.iter]. exists (lit "a"), (lit "aa"). split; [reflexivity |]. split; [reflexivity |]. exists (lit "aa"), []. split; [reflexivity |]. split; [| reflexivity]. right. left.
    exists (lit "a"), (lit "a"). split; [reflexivity |]. split; [reflexivity |]. exists (lit "a"), []. split; [reflexivity |]. split; [| reflexivity]. right. left.
    exists (lit "a"), []. split; [reflexivity |]. split; [reflexivity |]. exists [], []. split; [reflexivity |]. split; [now left | reflexivity].
  - split; vm_compute; reflexivity.
Qed.
