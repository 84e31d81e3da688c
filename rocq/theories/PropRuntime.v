(** * PropRuntime: properties of the [chewed] runtime (C01-C09). *)
From Verif Require Import Runtime SpecPos SpecUtf8 RuntimeFacts.
From Coq Require Import String.
From Coq Require Import List.
Open Scope list_scope.

(** ** C01, C02, C03: the cursor *)

(** What [peek]/[next] must deliver: a walk over the text. *)
Fixpoint walk (os : list bool) (text : rstr) : list (option char) :=
  match os with
  | [] => []
  | true :: os' => hd_error text :: walk os' (tl text)      (* next *)
  | false :: os' => hd_error text :: walk os' text          (* peek *)
  end.
Fixpoint drive (os : list bool) (st : iw) : list (option char) :=
  match os with
  | [] => []
  | true :: os' => let '(c, st') := iw_next st in c :: drive os' st'
  | false :: os' => let '(c, st') := iw_peek st in c :: drive os' st'
  end.

Lemma drive_walk os : forall st, drive os st = walk os (remaining st).
Proof.
  induction os as [|[] os IH]; intros st; cbn [drive walk]; [reflexivity| |].
  - destruct (next_spec st) as [N1 N2]. destruct (iw_next st) as [c st']. cbn in *. rewrite IH, N1, N2. reflexivity.
  - destruct (peek_spec st) as (P1 & P2 & _). destruct (iw_peek st) as [c st']. cbn in *. rewrite IH, P1, P2. reflexivity.
Qed.

Theorem C01_cursor_faithful (text : rstr) (os : list bool) : drive os (iw_new text) = walk os text.
Proof. exact (drive_walk os (iw_new text)). Qed.

(** Peek is the following next, and consumes nothing: from any state, any
    number of peeks changes nothing that is observable later. *)
Theorem C01_peek_is_next (st : iw) :
  fst (iw_peek st) = fst (iw_next st) /\ fst (iw_next (snd (iw_peek st))) = fst (iw_next st)
  /\ forall os, run_ops os (snd (iw_peek st)) = run_ops os st.
Proof.
  assert (HN : iw_next (snd (iw_peek st)) = iw_next st).
  { destruct st as [p [c|] [|d r]]; reflexivity. }
  destruct (peek_spec st) as (P1 & P2 & P3). destruct (next_spec st) as [N1 N2].
  split; [rewrite P1, N1; reflexivity|]. split; [rewrite HN; reflexivity|].
  intros os. induction os as [|o os IH]; [reflexivity|]. destruct o; cbn [run_ops do_op].
  - rewrite peek_peek. reflexivity.
  - rewrite HN. reflexivity.
  - unfold iw_pos. rewrite P3, IH. reflexivity.
Qed.

(** Every interleaving of peek, next and pos: characters and positions. *)
Theorem C02_positions (text : rstr) (os : list op) :
  run_ops os (iw_new text) = cursor_ops os [] text 0.
Proof.
  apply run_ops_spec; [reflexivity|right; reflexivity|]. rewrite late_pos_0. reflexivity.
Qed.

(** Every state a user can reach by calling peek, next and pos is a cursor
    over the text, displaced only by calls of next past its end. *)
Fixpoint exec_ops (os : list op) (st : iw) : iw :=
  match os with [] => st | o :: os' => exec_ops os' (snd (do_op o st)) end.
Theorem C02_reachable_states (text : rstr) (os : list op) :
  exists u r late, text = u ++ r /\ (late = 0 \/ r = []) /\ remaining (exec_ops os (iw_new text)) = r
    /\ iw_pos (exec_ops os (iw_new text)) = late_pos (spec_pos u (hd_error r)) late
    /\ (late = 0 -> at_cursor u r (exec_ops os (iw_new text))).
Proof.
  assert (G : forall os u r late st, text = u ++ r -> (late = 0 \/ r = []) -> remaining st = r ->
    iw_pos st = late_pos (spec_pos u (hd_error r)) late ->
    exists u r late, text = u ++ r /\ (late = 0 \/ r = []) /\ remaining (exec_ops os st) = r
    /\ iw_pos (exec_ops os st) = late_pos (spec_pos u (hd_error r)) late).
  { clear os. induction os as [|o os IH]; intros u r late st Ht Hl Hr Hp; cbn [exec_ops]; [exists u, r, late; auto|].
    destruct o; cbn [do_op].
    - destruct (peek_spec st) as (P1 & P2 & P3). destruct (iw_peek st) as [c st']. cbn in *.
      apply (IH u r late); unfold iw_pos in *; congruence.
    - destruct r as [|c r].
      + destruct (next_eof st Hr) as (N1 & N2 & N3). destruct (iw_next st) as [c st']. cbn in *.
        apply (IH u [] (S late)); auto. unfold iw_pos in *. rewrite N3, Hp. unfold late_pos, pos_advance. cbn. f_equal. lia.
      + destruct Hl as [-> | Hl]; [|discriminate]. rewrite late_pos_0 in Hp.
        destruct (next_at u c r st (conj Hr Hp)) as (N1 & N2 & N3). destruct (iw_next st) as [c' st']. cbn in *.
        apply (IH (u ++ [c]) r 0); auto; [rewrite <- app_assoc; exact Ht|]. rewrite late_pos_0. exact N3.
    - apply (IH u r late); assumption. }
  assert (H0 : iw_pos (iw_new text) = late_pos (spec_pos [] (hd_error text)) 0) by (rewrite late_pos_0; reflexivity).
  destruct (G os [] text 0 (iw_new text) eq_refl (or_introl eq_refl) eq_refl H0) as (u & r & late & H1 & H2 & H3 & H4).
  exists u, r, late. split; [exact H1|]. split; [exact H2|]. split; [exact H3|]. split; [exact H4|].
  intros E. rewrite E, late_pos_0 in H4. split; assumption.
Qed.

(** In particular after [n] calls of next, [n] within the text. *)
Fixpoint nexts (n : nat) (st : iw) : iw :=
  match n with O => st | S m => nexts m (snd (iw_next st)) end.
Theorem C02_position_of_prefix (u r : rstr) :
  let p := iw_pos (nexts (length u) (iw_new (u ++ r))) in
  line p = 1 + line_ends u (hd_error r) /\ col p = length (last_line u (hd_error r)).
Proof.
  assert (H : forall u' r' u0 st, at_cursor u0 (u' ++ r') st -> at_cursor (u0 ++ u') r' (nexts (length u') st)).
  { clear. induction u' as [|c u' IH]; intros r' u0 st H; cbn [nexts length app].
    - rewrite app_nil_r. exact H.
    - specialize (IH r' (u0 ++ [c]) (snd (iw_next st))). rewrite <- app_assoc in IH. apply IH.
      apply (next_at u0 c (u' ++ r') st H). }
  destruct (H u r [] (iw_new (u ++ r)) (at_cursor_new _)) as [_ H2]. cbn [app] in H2.
  cbv zeta. unfold iw_pos. rewrite H2. split; reflexivity.
Qed.

(** The last line is the longest suffix without a line end. *)
Theorem C02_last_line_spec (u : rstr) (next : option char) :
  (exists v, u = v ++ last_line u next) /\ line_ends (last_line u next) next = 0
  /\ forall v w, u = v ++ w -> line_ends w next = 0 -> length w <= length (last_line u next).
Proof.
  induction u as [|c u (IH1 & IH2 & IH3)].
  - split; [exists []; reflexivity|]. split; [reflexivity|]. intros v w E _. destruct v; [|discriminate]. cbn in E. subst w. reflexivity.
  - cbn [last_line]. destruct (Nat.eqb_spec (line_ends (c :: u) next) 0) as [E|E].
    + split; [exists []; reflexivity|]. split; [exact E|]. intros v w Ev _. rewrite Ev, app_length. lia.
    + split; [destruct IH1 as [v Hv]; exists (c :: v); cbn; f_equal; exact Hv|]. split; [exact IH2|].
      intros v w Ev Hw. destruct v as [|d v].
      * cbn in Ev. subst w. contradiction.
      * cbn in Ev. injection Ev as _ Ev. eauto.
Qed.

Example C02_example :
  map (fun n => let p := iw_pos (nexts n (iw_new [97; 13; 10; 98; 13; 99; 8232; 100]%N)) in (line p, col p)) [0;1;2;3;4;5;6;7;8]
  = [(1,0);(1,1);(1,2);(2,0);(2,1);(3,0);(3,1);(4,0);(4,1)].
Proof. reflexivity. Qed.

(** At the end of the input every further call of next moves the column. *)
Theorem C03_next_at_end (st : iw) : remaining st = [] ->
  fst (iw_next st) = None /\ remaining (snd (iw_next st)) = []
  /\ line (iw_pos (snd (iw_next st))) = line (iw_pos st)
  /\ col (iw_pos (snd (iw_next st))) = 1 + col (iw_pos st).
Proof.
  intros H. destruct (next_eof st H) as (N1 & N2 & N3). unfold iw_pos. rewrite N3. auto.
Qed.
Theorem C03_position_fixed_at_end_refuted :
  ~ (forall st, remaining st = [] -> iw_pos (snd (iw_next st)) = iw_pos st).
Proof. intros H. specialize (H (iw_new []) eq_refl). discriminate. Qed.
(** After [n] calls past the end the column is off by exactly [n]. *)
Theorem C03_late_calls (u : rstr) (n : nat) :
  let p := iw_pos (nexts (length u + n) (iw_new u)) in
  line p = 1 + line_ends u None /\ col p = length (last_line u None) + n.
Proof.
  assert (Hn : forall a b st, nexts (a + b) st = nexts b (nexts a st)).
  { induction a as [|a IH]; intros b st; [reflexivity|]. cbn. apply IH. }
  assert (He : forall n st, remaining st = [] -> iw_pos (nexts n st) = late_pos (iw_pos st) n).
  { clear. induction n as [|n IH]; intros st H; [rewrite late_pos_0; reflexivity|]. cbn [nexts].
    destruct (next_eof st H) as (_ & N2 & N3). rewrite IH by exact N2. unfold iw_pos. rewrite N3.
    unfold late_pos, pos_advance. cbn. f_equal. lia. }
  assert (Hr : forall n st, remaining (nexts n st) = skipn n (remaining st)).
  { clear. induction n as [|n IH]; intros st; [reflexivity|]. cbn [nexts]. rewrite IH, (proj2 (next_spec st)).
    destruct (remaining st); [destruct n|]; reflexivity. }
  cbv zeta. rewrite Hn, He.
  - pose proof (C02_position_of_prefix u []) as H. rewrite app_nil_r in H. cbv zeta in H. cbn [hd_error] in H.
    unfold late_pos. cbn [line col]. rewrite (proj1 H), (proj2 H). auto.
  - rewrite Hr. apply skipn_all2. cbn. lia.
Qed.

(** ** C04, C05: [consume_str] *)

(** [u] is what has been read so far, [r] what is to come. *)
Theorem C04_consume_str (s u r : rstr) (st : iw) : at_cursor u r st ->
  (fst (consume_str s st) = Ok tt <-> exists r', r = s ++ r')
  /\ (exists r', r = lcp s r ++ r' /\ at_cursor (u ++ lcp s r) r' (snd (consume_str s st))
      /\ (~ (exists q, r = s ++ q) ->
          match r' with
          | [] => fst (consume_str s st) = Err (EndOfStream (spec_pos (u ++ lcp s r) None))
          | c :: _ => (exists got, fst (consume_str s st) = Err (BadString (spec_pos (u ++ lcp s r) (Some c)) got s))
                      \/ fst (consume_str s st) = Panic
          end)).
Proof.
  intros H. destruct (consume_loop_spec s s 0 u r st H) as (r' & Hr & Hx). cbv zeta in Hr, Hx.
  unfold consume_str. destruct (consume_loop s s 0 st) as [x st']. destruct Hx as [Hc Hx]. cbn [fst snd].
  assert (Hfull : Nat.eqb (length (lcp s r)) (length s) = true <-> exists q, r = s ++ q)
    by (rewrite Nat.eqb_eq; apply lcp_full).
  split.
  - rewrite <- Hfull. destruct (Nat.eqb (length (lcp s r)) (length s)).
    + split; [reflexivity|]. intros _. destruct r'; exact Hx.
    + split; [|discriminate]. intros ->. destruct r' as [|c r']; [discriminate|].
      destruct (byte_prefix s _); discriminate.
  - exists r'. split; [exact Hr|]. split; [exact Hc|]. intros Hno.
    destruct (Nat.eqb (length (lcp s r)) (length s)); [exfalso; apply Hno, Hfull; reflexivity|].
    destruct Hc as [_ Hp]. unfold iw_pos in Hx. rewrite Hp in Hx. destruct r' as [|c r']; cbn [hd_error] in Hx.
    + exact Hx.
    + destruct (byte_prefix s _); [left; eexists; exact Hx|right; exact Hx].
Qed.

(** [lcp] is the longest common prefix. *)
Theorem C04_lcp_spec (s r : rstr) :
  (exists s' r', s = lcp s r ++ s' /\ r = lcp s r ++ r')
  /\ forall p s' r', s = p ++ s' -> r = p ++ r' -> length p <= length (lcp s r).
Proof.
  revert r; induction s as [|c s IH]; intros r.
  - split; [exists [], r; split; reflexivity|]. intros [|d p] s' r' E _; [reflexivity|discriminate].
  - destruct r as [|d r]; cbn [lcp].
    + split; [exists (c :: s), []; split; reflexivity|]. intros [|e p] s' r' _ E; [apply Nat.le_0_l|discriminate].
    + destruct (N.eqb_spec c d) as [<-|Hne].
      * destruct (IH r) as [(s' & r' & H1 & H2) H3]. split.
        -- exists s', r'. cbn. split; f_equal; assumption.
        -- intros [|e p] s1 r1 E1 E2; [apply Nat.le_0_l|]. cbn in E1, E2. injection E1 as <- E1. injection E2 as E2.
           cbn. apply le_n_S. eauto.
      * split; [exists (c :: s), (d :: r); split; reflexivity|].
        intros [|e p] s1 r1 E1 E2; [apply Nat.le_0_l|]. cbn in E1, E2. congruence.
Qed.

Example C04_example_ok : fst (consume_str (lit "ab") (iw_new (lit "abc"))) = Ok tt.
Proof. reflexivity. Qed.
Example C04_example_eof : fst (consume_str (lit "ab") (iw_new (lit "a"))) = Err (EndOfStream (LC 1 1)).
Proof. reflexivity. Qed.
Example C04_example_bad : fst (consume_str (lit "abc") (iw_new (lit "abd"))) = Err (BadString (LC 1 2) (lit "abd") (lit "abc")).
Proof. reflexivity. Qed.

(** The offending literals are those that match at least one character beyond
    ASCII before the mismatch. *)
Theorem C05_ascii_never_panics (s u r : rstr) (st : iw) : at_cursor u r st ->
  Forall (fun c => (c < 128)%N) (lcp s r) ->
  fst (consume_str s st) <> Panic
  /\ forall p got e, fst (consume_str s st) = Err (BadString p got e) ->
       e = s /\ exists c r', r = lcp s r ++ c :: r' /\ got = lcp s r ++ [c].
Proof.
  intros H Ha. destruct (consume_loop_spec s s 0 u r st H) as (r' & Hr & Hx). cbv zeta in Hr, Hx.
  unfold consume_str. destruct (consume_loop s s 0 st) as [x st']. destruct Hx as [Hc Hx]. cbn [fst snd].
  assert (Hb : byte_prefix s (0 + length (lcp s r)) = Some (lcp s r)).
  { cbn [Nat.add]. rewrite byte_prefix_ascii.
    - rewrite <- lcp_prefix. reflexivity.
    - destruct (C04_lcp_spec s r) as [(s' & _ & E & _) _]. rewrite E at 2. rewrite app_length. lia.
    - rewrite <- lcp_prefix. exact Ha. }
  rewrite Hb in Hx.
  destruct r' as [|c r'], (Nat.eqb (length (lcp s r)) (length s)); subst x; (split; [discriminate|]); intros p got e E; try discriminate.
  injection E as <- <- <-. split; [reflexivity|]. exists c, r'. split; [exact Hr|reflexivity].
Qed.

(** é = U+E9; matching it then failing slices the literal inside a character. *)
Theorem C05_never_panics_refuted :
  fst (consume_str [233; 97]%N (iw_new [233; 98]%N)) = Panic.
Proof. reflexivity. Qed.
(** Even without a panic, the quoted text is wrong: "éab" against "éax". *)
Theorem C05_quote_refuted :
  fst (consume_str [233; 97; 98]%N (iw_new [233; 97; 120]%N))
  = Err (BadString (LC 1 2) [233; 120]%N [233; 97; 98]%N).
Proof. reflexivity. Qed.

(** The exact condition: the panic happens when the number of matched
    characters is not the byte length of a prefix of the literal. *)
Lemma utf8_len_ok c : utf8_len c = length (utf8 c).
Proof. unfold utf8_len, utf8. repeat destruct (N.ltb _ _); reflexivity. Qed.
Lemma utf8_size_cons c s : length (utf8_bytes (c :: s)) = utf8_len c + length (utf8_bytes s).
Proof. unfold utf8_bytes. cbn [flat_map]. rewrite app_length, utf8_len_ok. reflexivity. Qed.
Lemma byte_prefix_some s : forall n out, byte_prefix s n = Some out <-> (exists t, s = out ++ t) /\ length (utf8_bytes out) = n.
Proof.
  assert (Hpos : forall c, 1 <= utf8_len c).
  { intros c. unfold utf8_len. repeat destruct (N.ltb _ _); lia. }
  induction s as [|c s IH]; intros n out.
  - destruct n; cbn; split.
    + intros E. injection E as <-. split; [exists []; reflexivity|reflexivity].
    + intros [[t E] _]. destruct out; [reflexivity|discriminate].
    + discriminate.
    + intros [[t E] E2]. destruct out; [discriminate|discriminate].
  - destruct n as [|n].
    + cbn. split.
      * intros E. injection E as <-. split; [exists (c :: s); reflexivity|reflexivity].
      * intros [[t E] E2]. destruct out as [|d out]; [reflexivity|]. rewrite utf8_size_cons in E2. pose proof (Hpos d). lia.
    + cbn [byte_prefix]. destruct (Nat.leb_spec (utf8_len c) (S n)) as [Hle|Hgt].
      * split.
        -- intros E. destruct (byte_prefix s (S n - utf8_len c)) as [o|] eqn:Eo; [|discriminate].
           injection E as <-. apply IH in Eo as [[t ->] Eo]. split; [exists t; reflexivity|]. rewrite utf8_size_cons. lia.
        -- intros [[t E] E2]. destruct out as [|d out]; [discriminate|]. cbn in E. injection E as <- E. rewrite utf8_size_cons in E2.
           replace (byte_prefix s (S n - utf8_len c)) with (Some out); [reflexivity|].
           symmetry. apply IH. split; [exists t; exact E|lia].
      * split; [discriminate|]. intros [[t E] E2]. destruct out as [|d out]; [discriminate|].
        cbn in E. injection E as <- E. rewrite utf8_size_cons in E2. lia.
Qed.
Theorem C05_panic_exactly (s u r : rstr) (st : iw) : at_cursor u r st ->
  (fst (consume_str s st) = Panic <->
   (exists c r', r = lcp s r ++ c :: r') /\ lcp s r <> s
   /\ ~ exists p t, s = p ++ t /\ length (utf8_bytes p) = length (lcp s r)).
Proof.
  intros H. destruct (consume_loop_spec s s 0 u r st H) as (r' & Hr & Hx). cbv zeta in Hr, Hx.
  unfold consume_str. destruct (consume_loop s s 0 st) as [x st']. destruct Hx as [Hc Hx]. cbn [fst snd].
  assert (Hfull : Nat.eqb (length (lcp s r)) (length s) = true <-> lcp s r = s).
  { rewrite Nat.eqb_eq. split; [|intros ->; reflexivity]. intros E. rewrite (lcp_prefix s r), E. apply firstn_all. }
  destruct (Nat.eqb (length (lcp s r)) (length s)).
  - split; [|intros (_ & Hne & _); exfalso; apply Hne, Hfull; reflexivity].
    destruct r'; subst x; discriminate.
  - assert (Hne : lcp s r <> s) by (intros E; apply Hfull in E; discriminate).
    destruct r' as [|c r'].
    + subst x. split; [discriminate|]. intros ((c & r1 & E) & _). exfalso. rewrite Hr in E at 1.
      apply app_inv_head in E. discriminate.
    + cbn [Nat.add] in Hx. destruct (byte_prefix s (length (lcp s r))) as [out|] eqn:Eb.
      * apply byte_prefix_some in Eb as [[t Ht] Hs]. subst x. split; [discriminate|].
        intros (_ & _ & Hno). exfalso. apply Hno. exists out, t. auto.
      * subst x. split; [|reflexivity]. intros _. split; [exists c, r'; exact Hr|]. split; [exact Hne|].
        intros (p & t & E1 & E2). assert (E : byte_prefix s (length (lcp s r)) = Some p) by (apply byte_prefix_some; eauto).
        congruence.
Qed.

(** What is quoted otherwise: the prefix of the literal with as many bytes as
    there were matched characters, and the character met. *)
Theorem C05_quoted_exactly (s u r : rstr) (st : iw) (p : linecol) (got e : rstr) : at_cursor u r st ->
  (fst (consume_str s st) = Err (BadString p got e) <->
   e = s /\ lcp s r <> s
   /\ exists c r' q t, r = lcp s r ++ c :: r' /\ p = spec_pos (u ++ lcp s r) (Some c)
      /\ s = q ++ t /\ length (utf8_bytes q) = length (lcp s r) /\ got = q ++ [c]).
Proof.
  intros H. destruct (consume_loop_spec s s 0 u r st H) as (r' & Hr & Hx). cbv zeta in Hr, Hx.
  unfold consume_str. destruct (consume_loop s s 0 st) as [x st']. destruct Hx as [Hc Hx]. cbn [fst snd].
  assert (Hfull : Nat.eqb (length (lcp s r)) (length s) = true <-> lcp s r = s).
  { rewrite Nat.eqb_eq. split; [|intros ->; reflexivity]. intros E. rewrite (lcp_prefix s r), E. apply firstn_all. }
  destruct (Nat.eqb (length (lcp s r)) (length s)).
  - split; [|intros (_ & Hne & _); exfalso; apply Hne, Hfull; reflexivity].
    destruct r'; subst x; discriminate.
  - assert (Hne : lcp s r <> s) by (intros E; apply Hfull in E; discriminate).
    destruct r' as [|c r'].
    + subst x. split; [discriminate|]. intros (_ & _ & c & r1 & q & t & E & _). exfalso. rewrite Hr in E at 1.
      apply app_inv_head in E. discriminate.
    + cbn [Nat.add] in Hx. destruct (byte_prefix s (length (lcp s r))) as [out|] eqn:Eb.
      * apply byte_prefix_some in Eb as [[t Ht] Hs]. subst x. split.
        -- intros E. injection E as <- <- <-. split; [reflexivity|]. split; [exact Hne|].
           exists c, r', out, t. repeat split; auto. exact (proj2 Hc).
        -- intros (-> & _ & c1 & r1 & q & t1 & E1 & -> & E3 & E4 & ->).
           assert (Ec : c :: r' = c1 :: r1) by (apply (app_inv_head (lcp s r)); congruence). injection Ec as <- <-.
           assert (Eq : byte_prefix s (length (lcp s r)) = Some q) by (apply byte_prefix_some; eauto).
           assert (Eq' : byte_prefix s (length (lcp s r)) = Some out) by (apply byte_prefix_some; eauto).
           assert (q = out) by congruence. subst q. f_equal. f_equal. exact (proj2 Hc).
      * subst x. split; [discriminate|]. intros (_ & _ & c1 & r1 & q & t1 & _ & _ & E3 & E4 & _).
        assert (E : byte_prefix s (length (lcp s r)) = Some q) by (apply byte_prefix_some; eauto). congruence.
Qed.
(** "éxab" against "éxaz": three characters matched, so two are quoted, which
    take three bytes. *)
Example C05_ex_quoted : fst (consume_str [233; 120; 97; 98]%N (iw_new [233; 120; 97; 122]%N))
  = Err (BadString (LC 1 3) [233; 120; 122]%N [233; 120; 97; 98]%N).
Proof. reflexivity. Qed.

(** ** C06 *)
Theorem C06_skip_while (f : char -> bool) (u r : rstr) (st : iw) : at_cursor u r st ->
  exists st' r', skip_while f st = Some st' /\ r = prefix_while f r ++ r' /\ at_cursor (u ++ prefix_while f r) r' st'.
Proof. exact (skip_while_spec f u r st). Qed.
Theorem C06_prefix_spec (f : char -> bool) (r : rstr) :
  (exists r', r = prefix_while f r ++ r' /\ forall c r'', r' = c :: r'' -> f c = false)
  /\ Forall (fun c => f c = true) (prefix_while f r).
Proof.
  induction r as [|c r [(r' & IH1 & IH2) IH3]]; cbn [prefix_while].
  - split; [exists []; split; [reflexivity|discriminate]|constructor].
  - destruct (f c) eqn:E.
    + split; [exists r'; split; [cbn; f_equal; exact IH1|exact IH2]|constructor; assumption].
    + split; [exists (c :: r); split; [reflexivity|]|constructor]. intros d r'' E'. injection E' as <- _. exact E.
Qed.
Example C06_example : option_map remaining (skip_while (N.eqb 32) (iw_new (lit "  x "))) = Some (lit "x ").
Proof. reflexivity. Qed.

(** ** C07 *)
Theorem C07_take_chars (set : list char) (n : nat) (u r : rstr) (st : iw) : at_cursor u r st ->
  let '(x, st') := take_chars_from set n st in
  (* success: exactly the next [n] characters, all in the set *)
  (forall buf, x = Ok buf <-> exists r', r = buf ++ r' /\ length buf = n /\ Forall (fun c => In c set) buf)
  /\ (forall buf, x = Ok buf -> exists r', r = buf ++ r' /\ at_cursor (u ++ buf) r' st')
  (* failure at a character outside the set, which is consumed *)
  /\ (forall p c e, x = Err (BadBranch p c e) ->
        e = set /\ ~ In c set /\ exists v r', r = v ++ c :: r' /\ length v < n /\ Forall (fun c => In c set) v
          /\ at_cursor (u ++ v ++ [c]) r' st' /\ p = spec_pos (u ++ v ++ [c]) (hd_error r'))
  (* failure at the end of the input: the reported column is one too far *)
  /\ (forall p, x = Err (EndOfStream p) ->
        length r < n /\ Forall (fun c => In c set) r /\ remaining st' = []
        /\ line p = 1 + line_ends (u ++ r) None /\ col p = 1 + length (last_line (u ++ r) None))
  /\ (forall p a b, x <> Err (BadString p a b)) /\ x <> Panic /\ x <> OutOfFuel.
Proof.
  intros H. pose proof (take_chars_spec set n u r st H) as Hs. cbv zeta in Hs.
  destruct (take_chars_from set n st) as [x st'].
  destruct (C06_prefix_spec (fun c => mem_char c set) r) as [(r0 & Hr & Hstop) Hall].
  set (q := prefix_while (fun c => mem_char c set) r) in *. clearbody q.
  assert (Hall' : Forall (fun c => In c set) q) by (eapply Forall_impl; [|exact Hall]; intros c; apply mem_char_In).
  assert (Hfp : firstn n q ++ skipn n q = q) by apply firstn_skipn.
  assert (Hallp : Forall (fun c => In c set) (firstn n q))
    by (apply Forall_forall; intros c Hc; rewrite Forall_forall in Hall'; apply Hall'; rewrite <- Hfp; apply in_or_app; auto).
  destruct (Nat.eqb_spec (length (firstn n q)) n) as [E|E].
  - destruct Hs as [-> (r' & Hr' & Hc)].
    split; [|split; [|split; [|split; [|split; [|split]]]]]; try discriminate.
    + intros buf. split.
      * intros Eb. injection Eb as <-. exists r'. auto.
      * intros (r1 & E1 & E2 & E3). f_equal.
        assert (HH : firstn n r = buf) by (rewrite E1, <- E2, firstn_app, firstn_all, Nat.sub_diag; cbn; apply app_nil_r).
        rewrite <- HH, Hr', firstn_app, E, Nat.sub_diag, <- E at 1. rewrite E. cbn. rewrite app_nil_r.
        rewrite firstn_firstn, Nat.min_id. reflexivity.
    + intros buf Eb. injection Eb as <-. eauto.
  - assert (Hlen : length q < n).
    { rewrite firstn_length in E. lia. }
    rewrite (firstn_all2 q) in Hs by lia. rewrite (firstn_all2 q) in E by lia.
    assert (Hsk : skipn (length q) r = r0).
    { rewrite Hr, skipn_app, skipn_all, Nat.sub_diag. reflexivity. }
    rewrite Hsk in Hs.
    assert (Hno : forall buf r1, r = buf ++ r1 -> length buf = n -> Forall (fun c => In c set) buf -> False).
    { intros buf r1 E1 E2 E3. destruct r0 as [|c r0].
      - rewrite app_nil_r in Hr. apply (f_equal (@length _)) in E1. rewrite Hr, app_length in E1. lia.
      - specialize (Hstop c r0 eq_refl). assert (HIn : In c buf).
        { assert (Hn : nth_error r (length q) = Some c).
          { rewrite Hr, nth_error_app2, Nat.sub_diag by lia. reflexivity. }
          rewrite E1, nth_error_app1 in Hn by lia. eapply nth_error_In; eauto. }
        rewrite Forall_forall in E3. apply E3, mem_char_In in HIn. congruence. }
    destruct r0 as [|c r0].
    + rewrite app_nil_r in Hr. destruct Hs as (-> & H2 & H3).
      split; [|split; [|split; [|split; [|split; [|split]]]]]; try discriminate.
      * intros buf. split; [discriminate|]. intros (r1 & E1 & E2 & E3). exfalso. eauto.
      * intros p Ep. injection Ep as <-. rewrite Hr. split; [exact Hlen|]. split; [exact Hall'|]. split; [exact H2|].
        rewrite H3. cbn [late_pos spec_pos line col]. split; [reflexivity|lia].
    + destruct Hs as (-> & H2 & H3).
      split; [|split; [|split; [|split; [|split; [|split]]]]]; try discriminate.
      * intros buf. split; [discriminate|]. intros (r1 & E1 & E2 & E3). exfalso. eauto.
      * intros p d e Ep. injection Ep as <- <- <-. split; [reflexivity|]. split; [exact H2|].
        exists q, r0. split; [exact Hr|]. split; [exact Hlen|]. split; [exact Hall'|]. split; [exact H3|]. apply (proj2 H3).
Qed.
Example C07_example : fst (take_chars_from (lit "01") 3 (iw_new (lit "0102"))) = Ok (lit "010").
Proof. reflexivity. Qed.
Example C07_example_eof : fst (take_chars_from (lit "01") 3 (iw_new (lit "01"))) = Err (EndOfStream (LC 1 3)).
Proof. reflexivity. Qed.

(** ** C08: [iter_strict] *)
Section C08.
  Context {R : Type}.
  (** What the item parser reads: [reads w v w'] when from text [w] it returns
      [v] and leaves [w']. *)
  Variable reads : rstr -> R -> rstr -> Prop.
  Variables (sep stop : char) (first : list char).

  (** Items separated by single separators, the last followed by [stop]. *)
  Inductive items : rstr -> list R -> rstr -> Prop :=
  | items_last c w v w' : c <> stop -> reads (c :: w) v (stop :: w') -> items (c :: w) [v] (stop :: w')
  | items_more c w v d w1 vs w' : c <> stop -> reads (c :: w) v (sep :: d :: w1) -> In d first ->
      items (d :: w1) vs w' -> items (c :: w) (v :: vs) w'.
End C08.

Theorem C08_iter_strict {R} (reads : rstr -> R -> rstr -> Prop) (item : iw -> res R take_error * iw)
    (sep stop : char) (sset first : list char) (text : rstr) (vs : list R) (w' : rstr) :
  (forall st v w, reads (remaining st) v w <-> exists st', item st = (Ok v, st') /\ remaining st' = w) ->
  sep <> stop -> ~ In stop first ->
  ((exists fuel st', iter_collect item sep stop sset first fuel (iw_new text) = (Ok vs, st') /\ remaining st' = w')
   <-> (vs = [] /\ w' = text /\ (text = [] \/ hd_error text = Some stop))
       \/ items reads sep stop first text vs w').
Proof.
  intros Hreads Hss Hsf.
  assert (Hp : forall st, remaining (peeked st) = remaining st) by (intros st; apply peek_spec).
  split.
  - intros (fuel & st' & E & Hw). apply (iter_collect_sound item sep stop sset first Hsf) in E as [(He & -> & ->)|Hs].
    + left. rewrite Hp in Hw. cbn in Hw. subst w'. split; [reflexivity|]. split; [reflexivity|].
      destruct He as [He|He]; unfold next_char in He; cbn in He; [left|right; exact He].
      destruct text; [reflexivity|discriminate].
    + right. change text with (remaining (iw_new text)). revert w' Hw.
      induction Hs as [st c v st1 Hc Hne Hi Hn _|st c v st1 d vs st' Hc Hne Hi Hn Hd Hf Hs IH]; intros w' Hw.
      * rewrite Hp in Hw. unfold next_char in Hc, Hn.
        assert (Hr : reads (remaining st) v (remaining st1)) by (rewrite <- Hp; apply Hreads; eauto).
        destruct (remaining st) as [|c' w]; [discriminate|]. cbn in Hc. injection Hc as ->.
        destruct (remaining st1) as [|s w1]; [discriminate|]. cbn in Hn. injection Hn as ->. subst w'.
        constructor; assumption.
      * unfold next_char in Hc, Hn, Hd.
        assert (Hr : reads (remaining st) v (remaining st1)) by (rewrite <- Hp; apply Hreads; eauto).
        specialize (IH w' Hw). rewrite Hp in IH.
        rewrite (proj2 (next_spec _)), Hp in IH, Hd.
        destruct (remaining st) as [|c' w]; [discriminate|]. cbn in Hc. injection Hc as ->.
        destruct (remaining st1) as [|s w1]; [discriminate|]. cbn in Hn. injection Hn as ->. cbn [tl] in IH, Hd.
        destruct w1 as [|d' w1]; [discriminate|]. cbn in Hd. injection Hd as ->.
        eapply items_more; eauto.
  - intros [(-> & -> & He)|Hi].
    + exists 1, (peeked (iw_new text)). split; [|apply Hp]. apply (iter_collect_stop item sep stop sset first).
      destruct He as [->|He]; [left; reflexivity|right; exact He].
    + enough (HH : exists st', separated item sep stop first (iw_new text) vs st' /\ remaining st' = w').
      { destruct HH as (st' & Hs & Hw). exists (S (length vs)), st'. split; [|exact Hw].
        apply (iter_collect_complete item sep stop sset first _ _ _ Hs). lia. }
      change text with (remaining (iw_new text)) in Hi.
      remember (remaining (iw_new text)) as t eqn:Et. revert Et. generalize (iw_new text). clear text.
      induction Hi as [c w v w' Hne Hr|c w v d w1 vs w' Hne Hr Hin Hi IH]; intros st Et; rewrite Et, <- Hp in Hr.
      * apply Hreads in Hr as (st1 & E1 & E2). exists (peeked st1). split; [|rewrite Hp; exact E2].
        eapply separated_last with (c := c); eauto; unfold next_char; [rewrite <- Et|rewrite E2]; reflexivity.
      * apply Hreads in Hr as (st1 & E1 & E2).
        destruct (IH (peeked (snd (iw_next (peeked st1))))) as (st' & Hs & Hw).
        { rewrite Hp, (proj2 (next_spec _)), Hp, E2. reflexivity. }
        exists st'. split; [|exact Hw].
        eapply separated_more with (c := c) (d := d) (st1 := st1); eauto; unfold next_char.
        -- rewrite <- Et. reflexivity.
        -- rewrite E2. reflexivity.
        -- rewrite (proj2 (next_spec _)), Hp, E2. reflexivity.
Qed.

(** The reader is left at the stop character whenever an item was read. *)
Theorem C08_stops_at_stop {R} (reads : rstr -> R -> rstr -> Prop) sep stop first text vs w' :
  items reads sep stop first text vs w' -> hd_error w' = Some stop /\ vs <> [].
Proof. induction 1 as [| ? ? ? ? ? ? ? ? ? ? ? [IH1 IH2]]; split; try reflexivity; try discriminate. exact IH1. Qed.

(** The stop character is not required when the input is empty. *)
Theorem C08_needs_stop_refuted {R} (item : iw -> res R take_error * iw) sep stop sset first :
  iter_collect item sep stop sset first 1 (iw_new []) = (Ok [], iw_new []).
Proof. reflexivity. Qed.

(** An error of the item parser is never swallowed. *)
Theorem C08_item_error {R} (item : iw -> res R take_error * iw) sep stop sset first fuel st c e st1 :
  hd_error (remaining st) = Some c -> c <> stop -> item (snd (iw_peek st)) = (Err e, st1) ->
  exists e' st', iter_collect item sep stop sset first (S fuel) st = (Err e', st').
Proof.
  intros Hc Hne Hi. destruct (iter_next_error item sep stop sset first st c e st1 Hc Hne Hi) as [e' E].
  cbn [iter_collect]. destruct (iter_next item sep stop sset first st) as [x st']. cbn in E. subst x. eauto.
Qed.

(** It terminates, for item parsers that terminate and give nothing back. *)
Theorem C08_terminates {R} (item : iw -> res R take_error * iw) sep stop sset first :
  (forall st, fst (item st) <> OutOfFuel /\ length (remaining (snd (item st))) <= length (remaining st)) ->
  forall text, fst (iter_collect item sep stop sset first (S (length text)) (iw_new text)) <> OutOfFuel.
Proof.
  intros H text. apply (iter_collect_total item sep stop sset first H). cbn. lia.
Qed.

(** A concrete item parser: one digit. *)
Definition digit_item (st : iw) : res char take_error * iw :=
  let '(r, st') := take_chars_from (lit "0123456789") 1 st in
  (match r with Ok (c :: _) => Ok c | Ok [] => Panic | Err e => Err e | Panic => Panic | OutOfFuel => OutOfFuel end, st').
Definition digit_collect (s : rstr) :=
  let '(r, st) := iter_collect digit_item (chr ",") (chr "]") (lit ",]") (lit "0123456789") (S (length s)) (iw_new s) in
  (r, remaining st).
Example C08_example : digit_collect (lit "1,2,3]x") = (Ok (lit "123"), lit "]x").
Proof. reflexivity. Qed.
Example C08_example_trailing : digit_collect (lit "1,]") = (Err (BadBranch (LC 1 2) (chr "]") (lit "0123456789")), lit "]").
Proof. reflexivity. Qed.
Example C08_example_items :
  items (fun w v w' => w = v :: w' /\ In v (lit "0123456789")) (chr ",") (chr "]") (lit "0123456789") (lit "1,2]x") (lit "12") (lit "]x").
Proof.
  eapply items_more with (d := chr "2"); [discriminate|split; [reflexivity|cbn; auto]|cbn; auto|].
  apply items_last; [discriminate|split; [reflexivity|cbn; auto]].
Qed.

(** ** C09: [Parse::parse] *)
Theorem C09_parse {R} (take : iw -> res R take_error * iw) (text : rstr) :
  (forall v, parse_str_with take text = Ok v <-> fst (take (iw_new text)) = Ok v /\ remaining (snd (take (iw_new text))) = [])
  /\ (forall p, parse_str_with take text = Err (InputContinues p) <->
        (exists v, fst (take (iw_new text)) = Ok v) /\ remaining (snd (take (iw_new text))) <> []
        /\ p = iw_pos (snd (take (iw_new text))))
  /\ (forall e, parse_str_with take text = Err (PTake e) <-> fst (take (iw_new text)) = Err e).
Proof.
  unfold parse_str_with. split; [|split].
  - intros v. apply parse_with_ok.
  - intros p. apply parse_with_continues.
  - intros e. apply parse_with_err.
Qed.
Example C09_example : parse_str_with digit_item (lit "1x") = Err (InputContinues (LC 1 1)).
Proof. reflexivity. Qed.

Print Assumptions C01_cursor_faithful.
Print Assumptions C01_peek_is_next.
Print Assumptions C02_positions.
Print Assumptions C02_position_of_prefix.
Print Assumptions C03_late_calls.
Print Assumptions C04_consume_str.
Print Assumptions C05_ascii_never_panics.
Print Assumptions C05_panic_exactly.
Print Assumptions C05_quoted_exactly.
Print Assumptions C06_skip_while.
Print Assumptions C07_take_chars.
Print Assumptions C08_iter_strict.
Print Assumptions C08_item_error.
Print Assumptions C08_terminates.
Print Assumptions C09_parse.
