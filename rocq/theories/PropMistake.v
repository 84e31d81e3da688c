(** * C108: where the generated parsers of the repository report mistakes. *)
From Coq Require Import String ZArith.
From Verif Require Import SpecMistake SpecViable MistakeFacts SpecArithError ArithErr SpecJsonError ArithGen ArithGenFacts JsonGen PropGen PropArith PropArithErr PropArithGen PropJsonGen AutoTable AutoLex AutoFront AutoAgree PropAuto.
From Coq Require Import List Lia.
Open Scope list_scope.

(** ** All types of the three tables have values *)
Lemma arith_valued : all_valued arith_tab 60 = true.
Proof. vm_compute. reflexivity. Qed.
Lemma json_valued : all_valued json_tab 60 = true.
Proof. vm_compute. reflexivity. Qed.
Definition json_text (w : rstr) : Prop := exists v, Padded rfc8259 w v.
Definition nibble_text (w : rstr) : Prop := exists st, shape_stmt st /\ program_text st w.
(** ** The place of an error *)
(** The parsers generated for arithmetic, for JSON and for nibble itself report
    a mistake exactly where the text stops being the beginning of an
    expression, a JSON text, a program, and what they say about it is true. *)
Theorem C108_json : forall s x, parses json_tab json_root s (Err x) ->
  exists u rest, wrong_after json_text s u rest /\ perr_pos x = place u rest /\ match x with PTake y => says json_text u rest y | InputContinues _ => rest <> [] /\ json_text u end.
Proof.
  intros s x Hx. destruct json_compiles as (e & r & H). apply (table_errors _ _ _ _ _ _ _ json_text H (all_valued_ok _ _ json_valued)); [| exact Hx].
  destruct C69_language as (tab & root & out & E & HL). destruct json_compiled as [out' E']. rewrite E in E'. injection E' as -> -> _. exact HL.
Qed.
Lemma viable_chars u : viable u -> Forall no_break u.
Proof. intros H. apply viable_run in H as [[q d] H]. eapply run_chars; eauto. Qed.
Theorem C108_arith : forall s x, parses arith_tab arith_root s (Err x) ->
  exists u rest, wrong_after sentence s u rest /\ perr_pos x = LC 1 (length u) /\ match x with PTake y => says sentence u rest y | InputContinues _ => rest <> [] /\ sentence u end.
Proof.
  intros s x Hx. destruct arith_compiles as (e & r & H). destruct (table_errors heck e r arith_tab arith_root s x sentence H (all_valued_ok _ _ arith_valued)) as (u & rest & H1 & H2 & H3); [| exact Hx |].
  - destruct (C67_language exact) as (tab & root & out & E & HL). destruct arith_compiled as [out' E']. rewrite E in E'. injection E' as -> -> _. exact HL.
  - exists u, rest. split; [exact H1 |]. split; [| exact H3]. rewrite H2. apply pos_plain, viable_chars. apply H1.
Qed.
(** ** The two arithmetic parsers *)
(** When the hand-written parser reports an error so does the generated one; the
    generated one reports the first place where the text goes wrong, and the
    hand-written one the same place, or, if closing parentheses stand there but
    fewer than are open, the place after these. *)
Theorem C108_both : forall k n s e, 2 * length s + 2 <= n -> Arith.parse_expr k n s = Err e ->
  exists x u rest, parses arith_tab arith_root s (Err x) /\ wrong_after sentence s u rest /\ perr_pos x = LC 1 (length u)
    /\ perr_pos e = LC 1 (length u + if Nat.leb (left_open u) (closers rest) then 0 else closers rest).
Proof.
  intros k n s e Hn E. pose proof (C67_agrees k n s Hn) as Hx. rewrite E in Hx. destruct Hx as [x Hx]. destruct (C108_arith s x Hx) as (u & rest & H1 & H2 & _). exists x, u, rest. split; [exact Hx |]. split; [exact H1 |]. split; [exact H2 |].
  destruct (C99_errors k n s e E) as (u' & rest' & Es & Hv & Hs & Hn' & F1 & F2).
  assert (W : wrong_after sentence s u' rest'). { split; [exact Es |]. split; [exact Hs |]. split; [exact Hv |]. intros c r -> z Hz. apply (Hn' c r eq_refl). exists z. now rewrite <- app_assoc. }
  destruct (wrong_once _ _ _ _ _ _ H1 W) as [<- <-]. destruct (Nat.leb_spec (left_open u) (closers rest)) as [Hd | Hd].
  - rewrite Nat.add_0_r. specialize (F1 Hd). unfold fitting in F1. destruct rest as [| c r]; [now subst e |]. destruct F1 as [[_ ->] | (_ & l & -> & _)]; reflexivity.
  - rewrite (F2 Hd). unfold unclosed. destruct (skipn (closers rest) rest); cbn [perr_pos terr_pos]; f_equal; rewrite app_length, repeat_length; lia.
Qed.
(** So the hand-written parser never reports an earlier place. *)
Corollary C108_later : forall k n s e x, 2 * length s + 2 <= n -> Arith.parse_expr k n s = Err e -> parses arith_tab arith_root s (Err x) ->
  line (perr_pos e) = line (perr_pos x) /\ col (perr_pos x) <= col (perr_pos e).
Proof.
  intros k n s e x Hn E Hx. destruct (C108_both k n s e Hn E) as (x' & u & rest & Hx' & _ & H1 & H2). pose proof (parses_fun _ _ _ _ _ Hx Hx') as X. injection X as <-. rewrite H1, H2. cbn. split; [reflexivity | lia].
Qed.
(** ** Examples *)
Lemma arith_err fuel s x : GenSem.parse_str arith_tab fuel arith_root s = Err x -> parses arith_tab arith_root s (Err x).
Proof. intros E. rewrite <- E. apply parses_run. rewrite E. discriminate. Qed.
Example C108_ex : perr_pos (InputContinues (LC 1 2)) = LC 1 2 /\ (exists e x, Arith.parse_expr true 20 (lit "(()") = Err e /\ perr_pos e = LC 1 3 /\ parses arith_tab arith_root (lit "(()") (Err x) /\ perr_pos x = LC 1 2)
  /\ exists e x, Arith.parse_expr true 20 (lit "1+*2") = Err e /\ perr_pos e = LC 1 2 /\ parses arith_tab arith_root (lit "1+*2") (Err x) /\ perr_pos x = LC 1 2.
Proof.
  split; [reflexivity |]. split; eexists; eexists; (split; [vm_compute; reflexivity |]); (split; [reflexivity |]); (split; [apply (arith_err 60); vm_compute; reflexivity | reflexivity]).
Qed.
Lemma json_err fuel s x : GenSem.parse_str json_tab fuel json_root s = Err x -> parses json_tab json_root s (Err x).
Proof. intros E. rewrite <- E. apply parses_run. rewrite E. discriminate. Qed.
Example C108_ex_json : exists x, parses json_tab json_root (lit "[1, tru]") (Err x) /\ perr_pos x = LC 1 7.
Proof. eexists. split; [apply (json_err 60); vm_compute; reflexivity | reflexivity]. Qed.
(** ** autonibble *)
(** Not all types of autonibble's own parser have values: its grammar bounds the
    digits of a [\u] escape by an alternative that never ends, [!(/rec/ "a" . rec)].
    So a seventh digit [a], where the text goes wrong, is read as if it were
    fine, and so is every [a] after it; the error comes only after the last of
    them, and says that one more [a] was expected. *)
Definition dq : rstr := [34%N].
Definition escaped : rstr := lit "match " ++ dq ++ lit "\u{000000".
Lemma escape_ends c u z : char_text c u -> forall w, u ++ w = lit "\u{000000a" ++ z -> False.
Proof.
  intros H w E. destruct H as [c H1 H2 H3 | e c H | o h H1 H2 | ds H1 H2 H3].
  - injection E as E _. now apply H3.
  - injection E as E _. subst e. cbn in H. intuition congruence.
  - discriminate E.
  - rewrite <- !app_assoc in E. change (lit "\u{000000a" ++ z) with ([92; 117; 123]%N ++ lit "000000a" ++ z) in E. apply app_inv_head in E.
    do 7 (destruct ds as [| ? ds]; [discriminate E |]; cbn [app lit] in E; injection E as _ E). cbn [length] in H2. lia.
Qed.
Lemma escape_dead z : ~ nibble_text (escaped ++ chr "a" :: z).
Proof.
  intros (st & Hs & g & u & Hg & Ht & E). destruct g as [| c g]; [| apply Forall_inv in Hg; injection E as E _; subst c; cbn in Hg; intuition discriminate].
  cbn [app] in E. destruct Ht as [k e semi g1 w g2 g3 G1 G2 Hw G3 G4 | k nm args eq e semi next g1 ns g2 g3 w g4 g5 u]; [| discriminate E].
  inversion Hs as [? ? ? He |]; subst. apply shape_goods in He.
  change (escaped ++ chr "a" :: z) with (lit "match" ++ [32%N] ++ dq ++ lit "\u{000000a" ++ z) in E. apply app_inv_head in E.
  destruct g1 as [| c g1]; [now elim G2 |]. injection E as _ E. apply Forall_cons_iff in G1 as [_ G1]. destruct g1 as [| c' g1]; [| apply Forall_inv in G1; injection E as E _; subst c'; cbn in G1; intuition discriminate].
  assert (K : exists t w1 w2, good t /\ token_text t w1 /\ w = w1 ++ w2). { clear - Hw He. destruct Hw as [t w Hw | t u g t' ts w Hu _ _]; inversion He; subst; [exists t, w, []; now rewrite app_nil_r | exists t, u, (g ++ w); auto]. }
  destruct K as (t & w1 & w2 & Gt & Ht & ->). cbn [app] in E. clear G2 c. destruct Ht as [i Hi | v sp w Hv | c sp | sp ts g w g' P1 P2 P3].
  - inversion Gt as [? ? [(c & cs & Ei & Hc & _) | Ei] | | |]; subst; rewrite Ei in E; injection E as E _; [| discriminate E]. subst c. unfold letter in Hc. lia.
  - injection E as E. rewrite <- !app_assoc in E. destruct Hv as [| c u v w Hc Hv]; [discriminate E |]. rewrite <- !app_assoc in E. symmetry in E. exact (escape_ends _ _ z Hc _ E).
  - inversion Gt as [| | ? ? Hm |]; subst. injection E as E _. subst c. cbn in Hm. intuition discriminate.
  - discriminate E.
Qed.
(** Only late: the place it reports is never before the first wrong one. *)
Theorem C108_nibble : forall s x, parses auto_tab auto_root s (Err x) ->
  exists u rest, s = u ++ rest /\ perr_pos x = place u rest /\ (forall c r, rest = c :: r -> forall z, ~ nibble_text (u ++ c :: z)) /\ forall u0 rest0, wrong_after nibble_text s u0 rest0 -> length u0 <= length u.
Proof.
  intros s x Hx. destruct auto_compiles as (e & r & H). apply (table_late _ _ _ _ _ _ _ nibble_text H); [| exact Hx].
  destruct C73_language as (tab & root & out & E & HL). destruct auto_compiled as [out' E']. rewrite E in E'. injection E' as -> -> _. exact HL.
Qed.
Theorem C108_nibble_refuted : exists s x u rest, parses auto_tab auto_root s (Err x) /\ wrong_after nibble_text s u rest /\ length u = 16 /\ perr_pos x = LC 1 26 /\ exists got, x = PTake (BadString (LC 1 26) got (lit "a")).
Proof.
  assert (HL : forall w, (exists t, parses auto_tab auto_root w (Ok t)) <-> nibble_text w). { destruct C73_language as (tab & root & out & E & HL). destruct auto_compiled as [out' E']. rewrite E in E'. injection E' as -> -> _. exact HL. }
  pose (s := escaped ++ lit "aaaaaaaaaa}" ++ dq ++ lit ";"). assert (Hx : parses auto_tab auto_root s (Err (PTake (BadString (LC 1 26) [125%N] (lit "a"))))).
  { assert (E : GenSem.parse_str auto_tab 200 auto_root s = Err (PTake (BadString (LC 1 26) [125%N] (lit "a")))) by (vm_compute; reflexivity). rewrite <- E. apply parses_run. rewrite E. discriminate. }
  exists s, (PTake (BadString (LC 1 26) [125%N] (lit "a"))), escaped, (lit "aaaaaaaaaa}" ++ dq ++ lit ";"). split; [exact Hx |]. split; [| split; [reflexivity | split; [reflexivity | eauto]]].
  split; [reflexivity |]. split; [intros K; apply HL in K as [t K]; pose proof (parses_fun _ _ _ _ _ K Hx); discriminate |]. split.
  - exists (lit "}" ++ dq ++ lit ";"). apply HL. destruct (GenSem.parse_str auto_tab 200 auto_root (escaped ++ lit "}" ++ dq ++ lit ";")) as [t | | |] eqn:E; [exists t; exact (auto_run 200 _ _ E) | exfalso; vm_compute in E; discriminate E ..].
  - intros c r Er z K. injection Er as <- _. now apply escape_dead in K.
Qed.
Print Assumptions C108_json.
Print Assumptions C108_arith.
Print Assumptions C108_both.
Print Assumptions C108_later.
Print Assumptions C108_nibble_refuted.
Print Assumptions C108_nibble.
