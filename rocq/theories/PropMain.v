(** * PropMain: the whole program, from tokens to the generated parser.

    Vocabulary: [chomp] (Main: src/main.rs), [wf_stmt], [stmt_tokens]
    (SpecSyntax), [means_stmt] (SpecScope: lexical scoping), [steps], [lgram]
    (SpecBeta: beta reduction, grammars), [typed] (SpecTyping: the rules of
    typed grammars), [language] (SpecLang), [parses] (PropGen: what the
    generated parser returns), [own_fixes] (SpecSharing). *)
From Coq Require Import String.
From Verif Require Import Main ConvertFacts ReduceFacts ShareFacts InferMore ReduceMore StepFacts PropGen PropReduce PropTyping PropNibble.
From Coq Require Import List Lia.
Open Scope list_scope.

(** The program [s] stands for the grammar [g]. *)
Definition stands_for (s : stmt) (g : gram) : Prop :=
  exists e w, means_stmt [] s e /\ steps e w /\ lgram w = Some g.
(** The name conversions are defined on every name (heck panics on none). *)
Definition total (cs : casing) : Prop := forall s, camel cs s <> None /\ snake cs s <> None.

Lemma own_all l : (fix go l := match l with [] => True | x :: l' => own_fixes x /\ go l' end) l <-> Forall own_fixes l.
Proof.
  induction l as [| x l IH]; [split; constructor |]. rewrite IH. split; [intros [? ?]; now constructor | intros H; inversion H; auto].
Qed.
Lemma tfree_all i l : (fix go l := match l with [] => False | x :: l' => tfree i x \/ go l' end) l <-> Exists (tfree i) l.
Proof. induction l as [| x l IH]; [split; [intros [] | intros H; inversion H] |]. rewrite IH, Exists_cons. reflexivity. Qed.
Lemma closed_all n l : (fix go l := match l with [] => True | g :: l' => closed_below n g /\ go l' end) l <-> Forall (closed_below n) l.
Proof.
  induction l as [| x l IH]; [split; constructor |]. rewrite IH. split; [intros [? ?]; now constructor | intros H; inversion H; auto].
Qed.
Lemma closed_not_free e : forall n i, closed_below n (gram_of_t e) -> n <= i -> ~ tfree i e.
Proof.
  induction e using texpr_ind'; intros n j Hc Hi; cbn [gram_of_t closed_below tfree] in *; auto.
  - apply closed_all in Hc. rewrite tfree_all. intros Hx. apply Exists_exists in Hx as (x & Hx & Hf).
    rewrite Forall_forall in H, Hc. apply (H x Hx n j); auto. apply Hc. now apply in_map.
  - apply closed_all in Hc. rewrite tfree_all. intros Hx. apply Exists_exists in Hx as (x & Hx & Hf).
    rewrite Forall_forall in H, Hc. apply (H x Hx n j); auto. apply Hc. now apply in_map.
  - apply (IHe (S n)); [exact Hc | lia].
  - lia.
Qed.
Lemma own_inside root B e : own_fixes (gram_of_t root) -> inside root B e -> own_fixes (gram_of_t e).
Proof.
  intros H. induction 1 as [| B a l t x _ IH Hx | B a l t x _ IH Hx | B a i _ IH]; auto.
  - cbn [gram_of_t own_fixes] in IH. apply own_all in IH. rewrite Forall_forall in IH. apply IH. now apply in_map.
  - cbn [gram_of_t own_fixes] in IH. apply own_all in IH. rewrite Forall_forall in IH. apply IH. now apply in_map.
  - apply IH.
Qed.
Lemma own_sharing r : own_fixes (gram_of_t r) -> sharing_ok r.
Proof.
  intros H. apply C30_closed_fixes. intros B a i n Hin. pose proof (own_inside _ _ _ H Hin) as [Hc _].
  apply (closed_not_free i 1); [exact Hc | lia].
Qed.

(** ** C54: the whole program *)
Lemma chomp_inv join cs fuel ts tab root out : chomp join cs fuel ts = Ok (tab, root, out) ->
  exists s e v r, parse_program ts = Some s /\ convert_program join s = Ok e /\ reduce fuel e = Ok v /\ typecheck v = Ok r
    /\ compiles cs v r tab root.
Proof.
  unfold chomp. destruct (parse_program ts) as [s |]; [| discriminate]. destruct (convert_program join s) as [e | | |] eqn:Ec; try discriminate.
  cbn [res_map_err res_bind]. destruct (reduce fuel e) as [v | | |] eqn:Er; try discriminate. cbn [res_map_err res_bind].
  destruct (typecheck v) as [r | | |] eqn:Et; try discriminate. cbn [res_map_err res_bind].
  destruct (generate cs r) as [[b id] |] eqn:Eg; try discriminate. destruct (emit_code None id b) as [code |]; try discriminate.
  intros [= <- <- <-]. exists s, e, v, r. split; [reflexivity |]. split; [exact Ec |]. split; [exact Er |]. split; [exact Et |].
  split; [exact Et |]. exists b. split; [exact Eg | reflexivity].
Qed.
Lemma reduce_stands join fuel s e v r : wf_stmt s -> convert_program join s = Ok e -> reduce fuel e = Ok v -> typecheck v = Ok r ->
  exists g t, stands_for s g /\ gram_of v = Some g /\ gram_of_t r = g /\ typed [] g t.
Proof.
  intros Hw Ec Er Et. destruct (typecheck_typed v r Et) as (g & t & Hg & Hr & Ht & _). exists g, t. split; [| auto].
  exists (erase e), (erase v). split; [apply (C47_scoping join s _ Hw); eauto |]. split; [eapply C40_sound; eassumption |].
  now rewrite <- gram_of_lgram.
Qed.
(** If the program compiles, it stands for one grammar, which is typable; the
    generated parser returns on every input, and accepts exactly the language
    of the grammar, when its fixed points do not mention each other's
    variables (C30 says what happens otherwise). *)
Theorem C54_sound : forall join cs fuel ts tab root out, chomp join cs fuel ts = Ok (tab, root, out) ->
  exists s g t, ts = stmt_tokens s /\ wf_stmt s /\ stands_for s g /\ (forall g', stands_for s g' -> g' = g) /\ typed [] g t
    /\ (forall input, exists x, parses tab root input x)
    /\ (own_fixes g -> forall input, (exists v, parses tab root input (Ok v)) <-> language g input).
Proof.
  intros join cs fuel ts tab root out E. destruct (chomp_inv _ _ _ _ _ _ _ E) as (s & e & v & r & Ep & Ec & Er & Et & Hc).
  apply parse_program_iff in Ep as [Hw ->]. destruct (reduce_stands join fuel s e v r Hw Ec Er Et) as (g & t & Hs & Hg & Hr & Ht).
  exists s, g, t. split; [reflexivity |]. split; [exact Hw |]. split; [exact Hs |]. split; [| split; [exact Ht | split]].
  - intros g' (e' & w' & Hm & Hst & Hl). destruct (proj2 (C47_scoping join s e' Hw) Hm) as (e2 & Ec2 & <-).
    rewrite Ec in Ec2. injection Ec2 as <-. destruct (C43_unique e w' g' Hst Hl) as (_ & U & _). destruct (U fuel v Er) as [_ U']. congruence.
  - intros input. eapply C25_result; eassumption.
  - intros Ho. apply (C22_decides_language cs v r tab root g Hc Hg). apply own_sharing. now rewrite Hr.
Qed.
(** Every program that stands for a typable grammar compiles. *)
Theorem C54_complete : forall join cs s g t, total cs -> wf_stmt s -> stands_for s g -> typed [] g t ->
  exists fuel, forall fuel', fuel <= fuel' -> exists x, chomp join cs fuel' (stmt_tokens s) = Ok x.
Proof.
  intros join cs s g t Hcs Hw (e' & w & Hm & Hst & Hl) Ht.
  destruct (proj2 (C47_scoping join s e' Hw) Hm) as (e & Ec & <-).
  destruct (C43_unique e w g Hst Hl) as ((n & v & Er) & U & _). destruct (U n v Er) as [_ Hg].
  assert (Et : exists r, typecheck v = Ok r) by (apply C14_program; eauto). destruct Et as [r Et].
  exists n. intros fuel' Hf. unfold chomp. rewrite (proj2 (C53_parse_print _ s) (conj Hw eq_refl)), Ec. cbn [res_map_err res_bind].
  rewrite (mono_ok n fuel' e v Hf Er). cbn [res_map_err res_bind]. rewrite Et. cbn [res_map_err res_bind].
  destruct (C36_no_panic cs v r Et) as [(nm & _ & [Hn | Hn]) | (b & root & x & -> & ->)].
  - now apply (Hcs (name_text nm)) in Hn.
  - now apply (Hcs (name_text nm)) in Hn.
  - eauto.
Qed.
(** And the others are rejected, or their reduction does not end: each error
    is justified. *)
Theorem C54_errors : forall join cs fuel ts x, chomp join cs fuel ts = Err x ->
  match x with
  | MParse => forall s, wf_stmt s -> ts <> stmt_tokens s
  | MConvert y => exists s i l, ts = stmt_tokens s /\ undeclared_stmt [] s = i :: l /\ y = UndeclaredName (new_variable (Spanned i))
  | MReduce y => exists s e, ts = stmt_tokens s /\ means_stmt [] s e /\ fails e (failure_of y)
  | MType _ => exists s, ts = stmt_tokens s /\ forall g t, stands_for s g -> ~ typed [] g t
  end.
Proof.
  intros join cs fuel ts x E. unfold chomp in E. destruct (parse_program ts) as [s |] eqn:Ep.
  2: { injection E as <-. intros s Hw ->. rewrite (proj2 (C53_parse_print _ s) (conj Hw eq_refl)) in Ep. discriminate Ep. }
  apply parse_program_iff in Ep as [Hw ->]. pose proof (C48_undeclared join s Hw) as Hu.
  destruct (convert_program join s) as [e | y | |] eqn:Ec; cbn [res_map_err res_bind] in E; try discriminate E.
  2: { injection E as <-. destruct (undeclared_stmt [] s) as [| i l] eqn:Eu; [destruct Hu as [? Hu]; discriminate Hu |].
       exists s, i, l. split; [reflexivity |]. split; [exact Eu |]. congruence. }
  assert (Hm : means_stmt [] s (erase e)) by (apply (C47_scoping join s _ Hw); eauto).
  destruct (reduce fuel e) as [v | y | |] eqn:Er; cbn [res_map_err res_bind] in E; try discriminate E.
  2: { injection E as <-. exists s, (erase e). split; [reflexivity |]. split; [exact Hm |]. apply (C45_errors e). eauto. }
  destruct (typecheck v) as [r | y | |] eqn:Et; cbn [res_map_err res_bind] in E; try discriminate E.
  - destruct (generate cs r) as [[b id] |]; [destruct (emit_code None id b) |]; discriminate E.
  - injection E as <-. exists s. split; [reflexivity |]. intros g t (e' & w & Hm' & Hst & Hl) Ht.
    pose proof (means_stmt_fun _ _ _ _ Hm Hm') as <-. destruct (C43_unique e w g Hst Hl) as (_ & U & _). destruct (U fuel v Er) as [_ Hg].
    assert (Hr : exists r, typecheck v = Ok r) by (apply C14_program; eauto). destruct Hr as [r Hr]. congruence.
Qed.
(** No panic, when names can be converted. *)
Theorem C54_no_panic : forall join cs fuel ts, total cs -> chomp join cs fuel ts <> Panic.
Proof.
  intros join cs fuel ts Hcs E. unfold chomp in E. destruct (parse_program ts) as [s |] eqn:Ep; [| discriminate E].
  apply parse_program_iff in Ep as [Hw ->]. pose proof (C48_undeclared join s Hw) as Hu.
  destruct (convert_program join s) as [e | y | |] eqn:Ec; cbn [res_map_err res_bind] in E; try discriminate E.
  2: { destruct (undeclared_stmt [] s); [destruct Hu as [? Hu] |]; discriminate Hu. }
  destruct (reduce fuel e) as [v | y | |] eqn:Er; cbn [res_map_err res_bind] in E; try discriminate E.
  2: { now apply C45_never_panics in Er. }
  destruct (typecheck v) as [r | y | |] eqn:Et; cbn [res_map_err res_bind] in E; try discriminate E.
  2: { destruct (C13_program_bound v) as [[r Hr] | [x Hx]]; congruence. }
  destruct (C36_no_panic cs v r Et) as [(nm & _ & [Hn | Hn]) | (b & root & x & Hg & He)].
  - now apply (Hcs (name_text nm)) in Hn.
  - now apply (Hcs (name_text nm)) in Hn.
  - rewrite Hg, He in E. discriminate E.
Qed.
Print Assumptions C54_sound.
Print Assumptions C54_complete.
Print Assumptions C54_errors.
Print Assumptions C54_no_panic.
Definition cs1 : casing := Casing (fun s => Some (upper s)) (fun s => Some s).
Example C54_ex : total cs1 /\ exists tab root out, chomp no_join cs1 20 ex_tokens = Ok (tab, root, out)
  /\ (exists v, parses tab root (lit "aa") (Ok v)) /\ stands_for ex_prog (GAlt [GCat [GLit (lit "a"); GLit (lit "a")]; GLit (lit "b")]).
Proof.
  split; [split; discriminate |]. do 3 eexists. split; [vm_compute; reflexivity |]. split.
  - eexists. match goal with |- parses ?t ?r ?s ?x => assert (G : parse_str t 60 r s = x) by (vm_compute; reflexivity) end. rewrite <- G. apply parses_run. rewrite G. discriminate.
  - assert (Hw : wf_stmt ex_prog) by (apply wf_of_parse; vm_compute; reflexivity).
    assert (Hc : exists e, convert_program no_join ex_prog = Ok e) by (eexists; vm_compute; reflexivity). destruct Hc as [e Ec].
    exists (erase e). assert (Hr : exists v, reduce 20 e = Ok v /\ lgram (erase v) = Some (GAlt [GCat [GLit (lit "a"); GLit (lit "a")]; GLit (lit "b")])).
    { assert (E : Ok e = convert_program no_join ex_prog) by congruence. vm_compute in E. injection E as ->. eexists. split; vm_compute; reflexivity. }
    destruct Hr as (v & Er & Hl). exists (erase v). split; [apply (C47_scoping no_join ex_prog _ Hw); eauto |]. split; [eapply C40_sound; eassumption | exact Hl].
Qed.
