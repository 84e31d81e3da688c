(** * PropSource: the texts chomp reads (C97).

    Vocabulary: [chomp_reads], [text_tokens] (Source), [chomp_main] (AutoMain:
    src/main.rs on a text), [wf_stmt] (SpecSyntax: the grammar), [stmt_tokens]
    (Nibble: the tokens of a program), [source] (SpecSource: how tokens are
    written), [same_token] (AutoLex: equal but for the spans). *)
From Coq Require Import String.
From Verif Require Import SourceRespan AutoMain SpecSource.
From Coq Require Import List Lia.
Import ListNotations.
Open Scope list_scope.

(** C97.  What is read is a program of the grammar, and the text is written for
    its tokens. *)
Theorem C97_sound (s : rstr) (st : stmt) : chomp_reads s = Some st -> wf_stmt st /\ source (stmt_tokens st) s [].
Proof.
  unfold chomp_reads. destruct (text_tokens s) as [ts |] eqn:E; [| discriminate]. intros H. apply parse_program_iff in H as [Hw ->]. split; [exact Hw | now apply text_tokens_sound].
Qed.
(** Every text written for the tokens of a program of the grammar is read, as
    that program but for the spans. *)
Theorem C97_complete (s : rstr) (st : stmt) : wf_stmt st -> source (stmt_tokens st) s [] ->
  exists st', chomp_reads s = Some st' /\ Forall2 same_token (stmt_tokens st) (stmt_tokens st').
Proof.
  intros Hw Hs. apply text_tokens_complete in Hs as (ts & E & F). destruct (wf_respan_stmt st Hw ts F) as (st' & Hw' & E'). exists st'. split; [| now rewrite E'].
  unfold chomp_reads. rewrite E. apply parse_program_iff. auto.
Qed.
(** A text stands for at most one program. *)
Corollary C97_unambiguous (s : rstr) (st st' : stmt) : wf_stmt st -> wf_stmt st' -> source (stmt_tokens st) s [] -> source (stmt_tokens st') s [] ->
  exists ts, Forall2 same_token (stmt_tokens st) ts /\ Forall2 same_token (stmt_tokens st') ts.
Proof.
  intros Hw Hw' Hs Hs'. apply C97_complete in Hs as (x & E & F); [| exact Hw]. apply C97_complete in Hs' as (x' & E' & F'); [| exact Hw']. rewrite E in E'. injection E' as <-. eauto.
Qed.
(** Every other text is rejected as such, and no other is. *)
Theorem C97_rejected (join : span -> span -> option span) (cs : casing) (fuel : nat) (s : rstr) :
  chomp_main join cs fuel s = Err MParse <-> forall st, wf_stmt st -> ~ source (stmt_tokens st) s [].
Proof.
  assert (R : chomp_main join cs fuel s = Err MParse <-> chomp_reads s = None).
  { unfold chomp_main, chomp_reads. destruct (text_tokens s) as [ts |]; [| tauto]. unfold chomp. destruct (parse_program ts) as [st |]; [| tauto]. split; [| discriminate].
    destruct (convert_program join st) as [e | | |]; try discriminate. cbn [res_map_err res_bind]. destruct (reduce fuel e) as [v | | |]; try discriminate. cbn [res_map_err res_bind].
    destruct (typecheck v) as [r | | |]; try discriminate. cbn [res_map_err res_bind]. destruct (generate cs r) as [[b id] |]; try discriminate. destruct (emit_code None id b); discriminate. }
  rewrite R. split.
  - intros E st Hw Hs. apply C97_complete in Hs as (st' & E' & _); [| exact Hw]. congruence.
  - intros H. destruct (chomp_reads s) as [st |] eqn:E; [| reflexivity]. apply C97_sound in E as [Hw Hs]. now elim (H st Hw).
Qed.
Example C97_ex : exists st, chomp_reads (lit "let f x = x | _; match (f ""a\n"").""b"" : y;") = Some st /\ length (stmt_tokens st) = 15.
Proof. vm_compute. eexists. split; reflexivity. Qed.
Example C97_ex_rejected : Forall (fun s => chomp_reads s = None) [lit "match (""a"";"; lit "match ""a"");"; lit "match """ ++ [13%N] ++ lit """;"; lit "match ""a""b;"; lit "match ""a"""; lit "match \"; lit "match ""\x80"";"].
Proof. repeat constructor. Qed.
Print Assumptions C97_sound.
Print Assumptions C97_complete.
Print Assumptions C97_unambiguous.
Print Assumptions C97_rejected.
