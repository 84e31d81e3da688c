(** * PropWide: the parts of the types of a compiled program (C91).

    Vocabulary: [chomp] (Main: src/main.rs), [parses] (PropGen), [parse_message]
    (Messages), [self_delimiting] (SpecReport). *)
From Coq Require Import String.
From Verif Require Import Main WideFacts PropGen PropNibble PropReduce PropMain PropOrigin PropReport PropViable Examples.
From Coq Require Import List.
Open Scope list_scope.

(** ** C91 *)
(** Every struct that is generated for a concatenation has two fields or more,
    and every enum that is generated for an alternation has two variants or
    more. *)
Theorem C91_two_parts : forall join cs fuel ts tab root out, chomp join cs fuel ts = Ok (tab, root, out) ->
  forall en, In en tab -> match en_def en with
    | DCat _ _ ids => 2 <= List.length ids
    | DAlt _ ids _ _ _ _ => 2 <= List.length ids
    | _ => True
    end.
Proof.
  intros join cs fuel ts tab root out E. destruct (chomp_inv _ _ _ _ _ _ _ E) as (s & e & v & r & Ep & Ec & Er & Et & _ & (b & Hg & ->)).
  pose proof (program_marked _ _ _ _ _ _ Ep Ec Er) as M. pose proof (marked_broad _ _ _ _ _ M _ _ (infer_keeps _ _ _ _ _ Et)) as W.
  pose proof (gen_broad cs r bst_default _ _ W (Forall_nil _) Hg) as G. intros en Hin. unfold broads in G. rewrite Forall_forall in G. exact (G en Hin).
Qed.
Print Assumptions C91_two_parts.

(** An error that lists the characters that were expected lists two or more. *)
Theorem C91_two_expected : forall join cs fuel ts tab root out, chomp join cs fuel ts = Ok (tab, root, out) ->
  forall s p c l, parses tab root s (Err (PTake (BadBranch p c l))) -> 2 <= List.length l.
Proof.
  intros join cs fuel ts tab root out E s p c l Hx. pose proof (C91_two_parts _ _ _ _ _ _ _ E) as B.
  destruct (chomp_inv _ _ _ _ _ _ _ E) as (s0 & e & v & r & Ep & Ec & Er & Et & H).
  destruct (compiles_table _ _ _ _ _ H) as (m & _ & Hroot & Hgood & _ & _ & Hl).
  assert (Hf : forall id, id < List.length tab -> flat_ok tab (tau m) id) by (intros id Hid; apply Hgood; exact Hid).
  assert (Hb : forall id p ids fs nl al cv, def_of tab id = Some (DAlt p ids fs nl al cv) -> 2 <= List.length ids).
  { intros id p0 ids fs nl al cv Hd. unfold def_of in Hd. destruct (nth_error tab id) as [en |] eqn:En; [| discriminate]. cbn in Hd. injection Hd as Hd.
    pose proof (B en (nth_error_In _ _ En)) as K. now rewrite Hd in K. }
  destruct Hx as [_ [k Hx]]. pose proof (Hx k (le_n _)) as X. rewrite parse_take in X. destruct (take tab k root (iw_new s)) as [[w | z | |] st] eqn:T; try discriminate.
  - destruct (remaining st); discriminate.
  - injection X as ->. exact (take_several tab _ Hf Hl Hb _ _ _ _ _ Hroot T).
Qed.
Print Assumptions C91_two_expected.

(** So the parser of a program never says "Expected character 'c'.". *)
Theorem C91_never_said : forall debug_char debug_str, self_delimiting debug_char -> self_delimiting debug_str ->
  forall join cs fuel ts tab root out, chomp join cs fuel ts = Ok (tab, root, out) ->
  forall s x, parses tab root s (Err x) -> forall q c d,
  parse_message debug_char debug_str x <> located_text (line q) (col q) (lit "Unexpected character " ++ debug_char c ++ lit ". Expected character " ++ debug_char d ++ lit ".").
Proof.
  intros dc ds Hc Hs join cs fuel ts tab root out E s x Hx q c d M.
  assert (K : x = PTake (BadBranch q c [d])).
  { apply (C86_readable dc ds Hc Hs). rewrite M. unfold located_text. cbn [parse_message take_message]. unfold linecol_text. rewrite <- ?app_assoc. reflexivity. }
  subst x. pose proof (C91_two_expected _ _ _ _ _ _ _ E _ _ _ _ Hx) as L. cbn in L. lia.
Qed.
Print Assumptions C91_never_said.

(** [match "a" | "b";] on [c] lists both; an expression with a single branch,
    which no program has, does say it. *)
Definition ex_two : list token := [kw "match" 1; TkStr (lit "a") 2; pt "|" 3; TkStr (lit "b") 4; pt ";" 5].
Example C91_ex :
  (exists tab root out, chomp no_join cs1 20 ex_two = Ok (tab, root, out) /\ exists p, parses tab root (lit "c") (Err (PTake (BadBranch p 99%N [97%N; 98%N]))))
  /\ says_text (EAlt a0 (L "a") []) (lit "c") (lit "1:0: Unexpected character 'c'. Expected character 'a'.").
Proof.
  split.
  - do 3 eexists. split; [vm_compute; reflexivity |]. eexists. match goal with |- parses ?t ?r ?s ?x => assert (G : parse_str t 60 r s = x) by (vm_compute; reflexivity) end. rewrite <- G. apply parses_run. rewrite G. discriminate.
  - eapply says_text_run; [vm_compute; reflexivity | vm_compute; reflexivity].
Qed.
