(** * RuntimeFacts: the [chewed] runtime against cursors over a text. *)
From Verif Require Export Runtime SpecPos.

(** The characters still to come. *)
Definition remaining (st : iw) : rstr :=
  match inext st with Some c => c :: irest st | None => irest st end.

Definition spec_pos (u : rstr) (next : option char) : linecol :=
  LC (1 + line_ends u next) (length (last_line u next)).

(** [at_cursor u r st]: [u] has been read, [r] is still to come. *)
Definition at_cursor (u r : rstr) (st : iw) : Prop :=
  remaining st = r /\ ipos st = spec_pos u (hd_error r).

Lemma at_cursor_new s : at_cursor [] s (iw_new s).
Proof. split; reflexivity. Qed.

Lemma peek_spec st : fst (iw_peek st) = hd_error (remaining st) /\ remaining (snd (iw_peek st)) = remaining st
  /\ ipos (snd (iw_peek st)) = ipos st.
Proof. destruct st as [p [c|] [|d r]]; cbn; auto. Qed.

Lemma peek_at u r st : at_cursor u r st -> fst (iw_peek st) = hd_error r /\ at_cursor u r (snd (iw_peek st)).
Proof.
  intros [H1 H2]. destruct (peek_spec st) as (P1 & P2 & P3). unfold at_cursor. rewrite P1, P2, P3, H1. auto.
Qed.

Lemma peek_peek st : iw_peek (snd (iw_peek st)) = iw_peek st.
Proof. destruct st as [p [c|] [|d r]]; reflexivity. Qed.

Lemma line_ends_snoc u c next : line_ends (u ++ [c]) next = line_ends u (Some c) + (if ends_line c next then 1 else 0).
Proof.
  induction u as [|d u IH]; cbn [app line_ends next_of]; [lia|].
  rewrite IH. replace (next_of (u ++ [c]) next) with (next_of u (Some c)) by (destruct u; reflexivity). lia.
Qed.
Lemma last_line_none u next : line_ends u next = 0 -> last_line u next = u.
Proof. destruct u as [|c u]; [reflexivity|]. intros H. cbn [last_line]. rewrite H. reflexivity. Qed.
Lemma last_line_snoc u c next : last_line (u ++ [c]) next = if ends_line c next then [] else last_line u (Some c) ++ [c].
Proof.
  induction u as [|d u IH].
  - cbn [app last_line line_ends next_of]. destruct (ends_line c next); reflexivity.
  - cbn [app]. cbn [last_line]. change (d :: u ++ [c]) with ((d :: u) ++ [c]). rewrite line_ends_snoc, IH.
    destruct (ends_line c next) eqn:E; cbn [Nat.add].
    + rewrite Nat.add_1_r. reflexivity.
    + rewrite Nat.add_0_r. destruct (Nat.eqb _ 0); reflexivity.
Qed.

Lemma spec_pos_snoc u c next :
  spec_pos (u ++ [c]) next =
  if ends_line c next then pos_newline (spec_pos u (Some c)) else pos_advance (spec_pos u (Some c)).
Proof.
  unfold spec_pos, pos_newline, pos_advance. rewrite line_ends_snoc, last_line_snoc.
  destruct (ends_line c next); cbn [line col length]; f_equal; try lia.
  rewrite app_length. cbn. lia.
Qed.

Lemma is_line_break_spec c next : is_line_break c = true -> ends_line c next = true.
Proof.
  unfold is_line_break, ends_line, line_terminators. intros H. cbn [existsb]. rewrite orb_false_r.
  rewrite !orb_assoc. rewrite H. reflexivity.
Qed.
Lemma ends_line_other c next : is_line_break c = false -> N.eqb c CR = false -> ends_line c next = false.
Proof.
  unfold is_line_break, ends_line, line_terminators. intros H1 H2. cbn [existsb]. rewrite orb_false_r.
  rewrite !orb_assoc. rewrite H1. unfold CR in H2. rewrite H2. reflexivity.
Qed.
Lemma ends_line_CR next : ends_line CR next = negb (match next with Some d => N.eqb d 10 | None => false end).
Proof. reflexivity. Qed.

Lemma next_spec st : fst (iw_next st) = hd_error (remaining st) /\ remaining (snd (iw_next st)) = tl (remaining st).
Proof.
  destruct st as [p [c|] r]; cbn [iw_next inext irest ipos remaining hd_error tl].
  - destruct (is_line_break c) eqn:E1; [split; reflexivity|].
    destruct (N.eqb_spec c CR) as [->|E2]; [|split; reflexivity].
    destruct r as [|d r]; cbn; [split; reflexivity|]. destruct (N.eqb d LF); split; reflexivity.
  - destruct r as [|c r]; [split; reflexivity|]. cbn [iw_next inext irest ipos].
    destruct (is_line_break c) eqn:E1; [split; reflexivity|].
    destruct (N.eqb_spec c CR) as [->|E2]; [|split; reflexivity].
    destruct r as [|d r]; cbn; [split; reflexivity|]. destruct (N.eqb d LF); split; reflexivity.
Qed.

Lemma next_pos st c : hd_error (remaining st) = Some c ->
  ipos (snd (iw_next st)) = if ends_line c (hd_error (tl (remaining st))) then pos_newline (ipos st) else pos_advance (ipos st).
Proof.
  assert (Hgo : forall p c r,
    ipos (snd (if is_line_break c then (Some c, IW (pos_newline p) None r)
      else if N.eqb c CR then
      let '(p0, st2) := iw_peek (IW p None r) in
      match p0 with
      | Some d =>
        if N.eqb d LF then (Some CR, IW (pos_advance (ipos st2)) (inext st2) (irest st2))
        else (Some CR, IW (pos_newline (ipos st2)) (inext st2) (irest st2))
      | None => (Some CR, IW (pos_newline (ipos st2)) (inext st2) (irest st2))
      end
      else (Some c, IW (pos_advance p) None r)))
    = if ends_line c (hd_error r) then pos_newline p else pos_advance p).
  { clear. intros p c r. destruct (is_line_break c) eqn:E1; [rewrite is_line_break_spec by exact E1; reflexivity|].
    destruct (N.eqb_spec c CR) as [->|E2].
    - rewrite ends_line_CR. destruct r as [|d r]; cbn; [reflexivity|].
      unfold LF. destruct (N.eqb d 10); reflexivity.
    - rewrite ends_line_other; [reflexivity|exact E1|apply N.eqb_neq; exact E2]. }
  destruct st as [p [d|] r]; cbn [remaining inext irest hd_error tl].
  - intros E. injection E as ->. apply (Hgo p c r).
  - destruct r as [|d r]; [discriminate|]. cbn [hd_error tl]. intros E. injection E as ->. apply (Hgo p c r).
Qed.

Lemma next_at u c r st : at_cursor u (c :: r) st ->
  fst (iw_next st) = Some c /\ at_cursor (u ++ [c]) r (snd (iw_next st)).
Proof.
  intros [H1 H2]. destruct (next_spec st) as [N1 N2]. rewrite H1 in N1, N2.
  split; [exact N1|]. split; [exact N2|].
  rewrite (next_pos st c) by (rewrite H1; reflexivity). rewrite H1, H2. cbn [tl hd_error].
  rewrite spec_pos_snoc. reflexivity.
Qed.

Lemma next_eof st : remaining st = [] ->
  fst (iw_next st) = None /\ remaining (snd (iw_next st)) = [] /\ ipos (snd (iw_next st)) = pos_advance (ipos st).
Proof. destruct st as [p [c|] [|d r]]; cbn; auto; discriminate. Qed.

(** ** Any interleaving of [peek], [next] and [pos] *)
Inductive op := OpPeek | OpNext | OpPos.
Inductive obs := ObsChar (c : option char) | ObsPos (p : linecol).

Definition do_op (o : op) (st : iw) : obs * iw :=
  match o with
  | OpPeek => let '(c, st') := iw_peek st in (ObsChar c, st')
  | OpNext => let '(c, st') := iw_next st in (ObsChar c, st')
  | OpPos => (ObsPos (iw_pos st), st)
  end.
Fixpoint run_ops (os : list op) (st : iw) : list obs :=
  match os with
  | [] => []
  | o :: os' => let '(x, st') := do_op o st in x :: run_ops os' st'
  end.

(** What a cursor that has read [u] and has [r] to come shows.  [late] counts
    the calls of [next] made after the end. *)
Definition late_pos (p : linecol) (late : nat) : linecol := LC (line p) (col p + late).
Fixpoint cursor_ops (os : list op) (u r : rstr) (late : nat) : list obs :=
  match os with
  | [] => []
  | OpPeek :: os' => ObsChar (hd_error r) :: cursor_ops os' u r late
  | OpNext :: os' =>
    match r with
    | [] => ObsChar None :: cursor_ops os' u [] (S late)
    | c :: r' => ObsChar (Some c) :: cursor_ops os' (u ++ [c]) r' late
    end
  | OpPos :: os' => ObsPos (late_pos (spec_pos u (hd_error r)) late) :: cursor_ops os' u r late
  end.

Lemma late_pos_0 p : late_pos p 0 = p.
Proof. destruct p. unfold late_pos. cbn. rewrite Nat.add_0_r. reflexivity. Qed.

Lemma run_ops_spec os : forall u r late st, remaining st = r -> (r = [] \/ late = 0) ->
  ipos st = late_pos (spec_pos u (hd_error r)) late ->
  run_ops os st = cursor_ops os u r late.
Proof.
  induction os as [|o os IH]; intros u r late st Hr Hl Hp; [reflexivity|].
  destruct o; cbn [run_ops do_op cursor_ops].
  - destruct (peek_spec st) as (P1 & P2 & P3). destruct (iw_peek st) as [c st']. cbn in *.
    rewrite P1, Hr. f_equal. apply IH; congruence.
  - destruct r as [|c r].
    + destruct (next_eof st Hr) as (N1 & N2 & N3). destruct (iw_next st) as [c st']. cbn in *.
      rewrite N1. f_equal. apply IH; auto. rewrite N3, Hp. unfold late_pos, pos_advance. cbn. f_equal. lia.
    + destruct Hl as [Hl| ->]; [discriminate|]. rewrite late_pos_0 in Hp.
      destruct (next_at u c r st (conj Hr Hp)) as (N1 & N2 & N3). destruct (iw_next st) as [c' st']. cbn in *.
      rewrite N1. f_equal. apply IH; auto. rewrite late_pos_0. exact N3.
  - f_equal; [unfold iw_pos; rewrite Hp; reflexivity|]. apply IH; auto.
Qed.

(** ** [consume_str] *)
Lemma consume_loop_spec s cs : forall count u r st, at_cursor u r st ->
  let p := lcp cs r in
  exists r', r = p ++ r' /\
  let '(x, st') := consume_loop s cs count st in
  at_cursor (u ++ p) r' st' /\
  match r' with
  | [] => if Nat.eqb (length p) (length cs) then x = Ok tt else x = Err (EndOfStream (iw_pos st'))
  | c :: _ =>
    if Nat.eqb (length p) (length cs) then x = Ok tt
    else match byte_prefix s (count + length p) with
         | Some out => x = Err (BadString (iw_pos st') (out ++ [c]) s)
         | None => x = Panic
         end
  end.
Proof.
  induction cs as [|e cs IH]; intros count u r st H; cbn [lcp consume_loop].
  - exists r. split; [reflexivity|]. rewrite app_nil_r. split; [exact H|]. destruct r; reflexivity.
  - destruct (peek_at u r st H) as [P1 P2]. destruct (iw_peek st) as [p st1] eqn:Ep. cbn in P1, P2. subst p.
    destruct r as [|c r]; cbn [hd_error].
    + exists []. split; [reflexivity|]. rewrite app_nil_r. split; [exact P2|]. reflexivity.
    + destruct (N.eqb_spec e c) as [<-|Hne]; [rewrite N.eqb_refl|rewrite (proj2 (N.eqb_neq c e)) by congruence].
      * destruct (next_at u e r st1 P2) as [_ N2].
        destruct (IH (S count) (u ++ [e]) r (snd (iw_next st1)) N2) as (r' & Hr & Hx).
        exists r'. split; [cbn; f_equal; exact Hr|].
        destruct (consume_loop s cs (S count) (snd (iw_next st1))) as [x st'].
        destruct Hx as [Hx1 Hx2]. split; [rewrite <- app_assoc in Hx1; exact Hx1|].
        cbn [length Nat.eqb]. rewrite Nat.add_succ_r. exact Hx2.
      * exists (c :: r). split; [reflexivity|]. rewrite app_nil_r. cbn [length Nat.eqb].
        rewrite Nat.add_0_r. destruct (byte_prefix s count); split; auto.
Qed.

Lemma lcp_full s r : length (lcp s r) = length s <-> exists r', r = s ++ r'.
Proof.
  revert r; induction s as [|c s IH]; intros r; cbn [lcp length app].
  - split; [exists r; reflexivity|destruct r; reflexivity].
  - destruct r as [|d r]; cbn.
    + split; [discriminate|]. intros [r' H]. discriminate.
    + destruct (N.eqb_spec c d) as [<-|Hne]; cbn.
      * split.
        -- intros H. injection H as H. apply IH in H as [r' ->]. exists r'. reflexivity.
        -- intros [r' H]. injection H as ->. f_equal. apply IH. eauto.
      * split; [discriminate|]. intros [r' H]. injection H as -> _. congruence.
Qed.
Lemma lcp_prefix s r : lcp s r = firstn (length (lcp s r)) s.
Proof.
  revert r; induction s as [|c s IH]; intros [|d r]; cbn; try reflexivity.
  destruct (N.eqb c d); cbn; [|reflexivity]. rewrite <- IH. reflexivity.
Qed.
Lemma lcp_self s r : lcp s (s ++ r) = s.
Proof. induction s as [|c s IH]; cbn; [reflexivity|]. rewrite N.eqb_refl, IH. reflexivity. Qed.

Lemma byte_prefix_ascii s n : n <= length s -> Forall (fun c => (c < 128)%N) (firstn n s) ->
  byte_prefix s n = Some (firstn n s).
Proof.
  revert n; induction s as [|c s IH]; intros [|n] Hn HF; cbn in *; try reflexivity; try lia.
  inversion HF as [|? ? Hc HF']; subst. unfold utf8_len. rewrite (proj2 (N.ltb_lt _ _) Hc). cbn.
  rewrite Nat.sub_0_r. rewrite IH by (auto; lia). reflexivity.
Qed.

(** ** [skip_while] *)
Lemma skip_while_loop_spec f : forall fuel u r st, at_cursor u r st -> length r < fuel ->
  exists st', skip_while_loop fuel f st = Some st' /\ exists r', r = prefix_while f r ++ r'
    /\ at_cursor (u ++ prefix_while f r) r' st'.
Proof.
  induction fuel as [|fuel IH]; intros u r st H Hf; [lia|]. cbn [skip_while_loop].
  destruct (peek_at u r st H) as [P1 P2]. destruct (iw_peek st) as [p st1]. cbn in P1, P2. subst p.
  destruct r as [|c r]; cbn [hd_error prefix_while].
  - exists st1. split; [reflexivity|]. exists []. split; [reflexivity|]. rewrite app_nil_r. exact P2.
  - destruct (f c) eqn:E.
    + destruct (next_at u c r st1 P2) as [_ N2]. cbn in Hf.
      destruct (IH (u ++ [c]) r (snd (iw_next st1)) N2) as (st' & E' & r' & Hr & Hc); [lia|].
      exists st'. split; [exact E'|]. exists r'. split; [cbn; f_equal; exact Hr|].
      rewrite <- app_assoc in Hc. exact Hc.
    + exists st1. split; [reflexivity|]. exists (c :: r). split; [reflexivity|]. rewrite app_nil_r. exact P2.
Qed.

Lemma remaining_length st : length (remaining st) <= S (length (irest st)).
Proof. destruct st as [p [c|] r]; cbn; lia. Qed.

Lemma skip_while_spec f u r st : at_cursor u r st ->
  exists st' r', skip_while f st = Some st' /\ r = prefix_while f r ++ r' /\ at_cursor (u ++ prefix_while f r) r' st'.
Proof.
  intros H. destruct (skip_while_loop_spec f (2 + length (irest st)) u r st H) as (st' & E & r' & H1 & H2).
  - pose proof (remaining_length st) as Hl. rewrite (proj1 H) in Hl. lia.
  - exists st', r'. auto.
Qed.

(** ** [take_chars_from] *)
Lemma mem_char_In c l : mem_char c l = true <-> In c l.
Proof.
  unfold mem_char. rewrite existsb_exists. split.
  - intros (x & Hx & E). apply N.eqb_eq in E. subst. exact Hx.
  - intros H. exists c. split; [exact H|apply N.eqb_refl].
Qed.

Lemma take_chars_spec set n : forall u r st, at_cursor u r st ->
  let p := firstn n (prefix_while (fun c => mem_char c set) r) in
  let '(x, st') := take_chars_from set n st in
  if Nat.eqb (length p) n then x = Ok p /\ exists r', r = p ++ r' /\ at_cursor (u ++ p) r' st'
  else match skipn (length p) r with
       | [] => x = Err (EndOfStream (iw_pos st')) /\ remaining st' = []
               /\ iw_pos st' = late_pos (spec_pos (u ++ p) None) 1
       | c :: r' => x = Err (BadBranch (iw_pos st') c set) /\ ~ In c set /\ at_cursor (u ++ p ++ [c]) r' st'
       end.
Proof.
  induction n as [|n IH]; intros u r st H; cbv zeta; cbn [take_chars_from].
  - cbn. split; [reflexivity|]. exists r. rewrite app_nil_r. auto.
  - destruct r as [|c r]; cbn [prefix_while].
    + destruct (next_eof st (proj1 H)) as (N1 & N2 & N3). destruct (iw_next st) as [x st1]. cbn in N1, N2, N3. subst x.
      cbn [firstn length Nat.eqb skipn]. split; [reflexivity|]. split; [exact N2|].
      unfold iw_pos. rewrite N3, (proj2 H), app_nil_r. unfold late_pos, pos_advance. cbn [line col hd_error]. f_equal. lia.
    + destruct (next_at u c r st H) as [N1 N2]. destruct (iw_next st) as [x st1]. cbn in N1, N2. subst x.
      destruct (mem_char c set) eqn:E.
      * specialize (IH (u ++ [c]) r st1 N2). cbn [firstn]. cbv zeta in IH.
        revert IH. generalize (firstn n (prefix_while (fun c => mem_char c set) r)). intros p IH.
        destruct (take_chars_from set n st1) as [y st2]. cbn [length Nat.eqb].
        destruct (Nat.eqb (length p) n).
        -- destruct IH as [-> (r' & -> & Hc)]. split; [reflexivity|]. exists r'. split; [reflexivity|].
           rewrite <- app_assoc in Hc. exact Hc.
        -- cbn [skipn]. destruct (skipn (length p) r) as [|d r'].
           ++ destruct IH as (-> & H2 & H3). split; [reflexivity|]. split; [exact H2|].
              rewrite <- app_assoc in H3. exact H3.
           ++ destruct IH as (-> & H2 & H3). split; [reflexivity|]. split; [exact H2|].
              rewrite <- app_assoc in H3. exact H3.
      * cbn [firstn length Nat.eqb skipn]. split; [reflexivity|]. split; [|exact N2].
        intros Hin. apply mem_char_In in Hin. congruence.
Qed.

(** ** [iter_strict] *)
Section IterFacts.
  Context {R : Type}.
  Variable item : iw -> res R take_error * iw.
  Variables (sep stop : char) (sset first : list char).

  Definition next_char (st : iw) : option char := hd_error (remaining st).
  Definition peeked (st : iw) : iw := snd (iw_peek st).

  (** One or more items, with single separators, up to a stop character. *)
  Inductive separated : iw -> list R -> iw -> Prop :=
  | separated_last st c v st1 :
      next_char st = Some c -> c <> stop -> item (peeked st) = (Ok v, st1) ->
      next_char st1 = Some stop -> sep <> stop -> separated st [v] (peeked st1)
  | separated_more st c v st1 d vs st' :
      next_char st = Some c -> c <> stop -> item (peeked st) = (Ok v, st1) ->
      next_char st1 = Some sep ->
      next_char (snd (iw_next (peeked st1))) = Some d -> In d first ->
      separated (peeked (snd (iw_next (peeked st1)))) vs st' ->
      separated st (v :: vs) st'.

  Lemma iw_peek_eq st : iw_peek st = (next_char st, peeked st).
  Proof.
    unfold next_char, peeked. destruct (peek_spec st) as (H & _).
    destruct (iw_peek st) as [p st']. cbn in *. rewrite H. reflexivity.
  Qed.
  Lemma next_char_peeked st : next_char (peeked st) = next_char st.
  Proof. unfold next_char, peeked. destruct (peek_spec st) as (_ & H & _). rewrite H. reflexivity. Qed.
  Lemma peeked_peeked st : peeked (peeked st) = peeked st.
  Proof. unfold peeked. rewrite peek_peek. reflexivity. Qed.

  Hypothesis stop_not_first : ~ In stop first.

  Definition ends_here (st : iw) : Prop := next_char st = None \/ next_char st = Some stop.

  Lemma iter_collect_sound fuel : forall st vs st', iter_collect item sep stop sset first fuel st = (Ok vs, st') ->
    (ends_here st /\ vs = [] /\ st' = peeked st) \/ separated st vs st'.
  Proof.
    induction fuel as [|fuel IH]; intros st vs st' E; [discriminate|].
    cbn [iter_collect] in E. unfold iter_next in E. rewrite iw_peek_eq in E.
    destruct (next_char st) as [c|] eqn:Hc.
    2:{ injection E as <- <-. left. split; [left; exact Hc|auto]. }
    destruct (N.eqb_spec c stop) as [->|Hne].
    { injection E as <- <-. left. split; [right; exact Hc|auto]. }
    right. destruct (item (peeked st)) as [x st1] eqn:Ei.
    rewrite iw_peek_eq in E.
    destruct x as [v|er| |]; try discriminate E.
    - destruct (next_char st1) as [c2|] eqn:Hc2; [|discriminate].
      destruct (N.eqb_spec c2 sep) as [->|Hsep].
      + rewrite iw_peek_eq in E. destruct (next_char (snd (iw_next (peeked st1)))) as [d|] eqn:Hd; [|discriminate].
        destruct (mem_char d first) eqn:Hf; [|discriminate]. apply mem_char_In in Hf.
        destruct (iter_collect _ _ _ _ _ fuel _) as [y st2] eqn:Er.
        destruct y as [vs'| | |]; try discriminate E. injection E as <- <-.
        apply IH in Er as [[[He|He] _]|Hs].
        * rewrite next_char_peeked, Hd in He. discriminate.
        * rewrite next_char_peeked, Hd in He. injection He as ->. contradiction.
        * eapply separated_more; eauto.
      + destruct (N.eqb_spec c2 stop) as [->|Hst]; [|discriminate].
        destruct (iter_collect _ _ _ _ _ fuel _) as [y st2] eqn:Er.
        destruct y as [vs'| | |]; try discriminate E. injection E as <- <-.
        apply IH in Er as [(_ & -> & ->)|Hs].
        * rewrite peeked_peeked. eapply separated_last; eauto.
        * exfalso. inversion Hs as [? c3 ? ? H1 H2|? c3 ? ? ? ? ? H1 H2]; subst;
            rewrite next_char_peeked, Hc2 in H1; congruence.
    - exfalso. destruct (next_char st1) as [c2|]; [|discriminate].
      destruct (N.eqb c2 sep).
      + rewrite iw_peek_eq in E. destruct (next_char (snd (iw_next (peeked st1)))) as [d|]; [|discriminate].
        destruct (mem_char d first); discriminate.
      + destruct (N.eqb c2 stop); discriminate.
  Qed.

  Lemma iter_collect_stop fuel st : ends_here st ->
    iter_collect item sep stop sset first (S fuel) st = (Ok [], peeked st).
  Proof.
    intros H. cbn [iter_collect]. unfold iter_next. rewrite iw_peek_eq. destruct H as [-> | ->]; [reflexivity|].
    rewrite N.eqb_refl. reflexivity.
  Qed.

  Lemma iter_collect_complete st vs st' : separated st vs st' ->
    forall fuel, length vs < fuel -> iter_collect item sep stop sset first fuel st = (Ok vs, st').
  Proof.
    induction 1 as [st c v st1 Hc Hne Hi Hs Hss|st c v st1 d vs st' Hc Hne Hi Hs Hd Hf Hsep IH]; intros fuel Hfuel.
    - destruct fuel as [|fuel]; [lia|]. cbn in Hfuel. destruct fuel as [|fuel]; [lia|].
      remember (S fuel) as fl eqn:Efl. cbn [iter_collect]. unfold iter_next. rewrite iw_peek_eq, Hc.
      destruct (N.eqb_spec c stop) as [->|_]; [congruence|]. rewrite Hi, iw_peek_eq, Hs.
      destruct (N.eqb_spec stop sep) as [E|_]; [congruence|]. rewrite N.eqb_refl.
      subst fl. rewrite iter_collect_stop by (right; rewrite next_char_peeked; exact Hs).
      rewrite peeked_peeked. reflexivity.
    - destruct fuel as [|fuel]; [lia|]. cbn in Hfuel.
      cbn [iter_collect]. unfold iter_next. rewrite iw_peek_eq, Hc.
      destruct (N.eqb_spec c stop) as [->|_]; [congruence|]. rewrite Hi, iw_peek_eq, Hs, N.eqb_refl.
      rewrite iw_peek_eq, Hd. rewrite (proj2 (mem_char_In d first) Hf).
      rewrite IH by lia. reflexivity.
  Qed.

  (** An item error makes the collection fail. *)
  Lemma iter_next_error st c e st1 : next_char st = Some c -> c <> stop -> item (peeked st) = (Err e, st1) ->
    exists e', fst (iter_next item sep stop sset first st) = Some (Err e').
  Proof.
    intros Hc Hne Hi. unfold iter_next. rewrite iw_peek_eq, Hc.
    destruct (N.eqb_spec c stop) as [->|_]; [congruence|]. rewrite Hi, iw_peek_eq.
    destruct (next_char st1) as [d|]; [|eexists; reflexivity].
    destruct (N.eqb d sep).
    - rewrite iw_peek_eq. destruct (next_char (snd (iw_next (peeked st1)))) as [d'|]; [|eexists; reflexivity].
      destruct (mem_char d' first); eexists; reflexivity.
    - destruct (N.eqb d stop); eexists; reflexivity.
  Qed.

  (** With an item parser that never gives characters back, collecting
      terminates. *)
  Lemma iter_collect_total :
    (forall st, fst (item st) <> OutOfFuel /\ length (remaining (snd (item st))) <= length (remaining st)) ->
    forall fuel st, length (remaining st) < fuel -> fst (iter_collect item sep stop sset first fuel st) <> OutOfFuel.
  Proof.
    intros Hitem. induction fuel as [|fuel IH]; intros st Hf; [lia|].
    cbn [iter_collect]. unfold iter_next. rewrite iw_peek_eq.
    destruct (next_char st) as [c|] eqn:Hc; [|discriminate].
    destruct (N.eqb_spec c stop) as [->|Hne]; [discriminate|].
    destruct (Hitem (peeked st)) as [Hi1 Hi2]. destruct (item (peeked st)) as [x st1] eqn:Ei. cbn in Hi1, Hi2.
    assert (Hp : remaining (peeked st) = remaining st) by apply peek_spec.
    rewrite Hp in Hi2.
    destruct x as [v|er| |]; try discriminate; [| |contradiction].
    - rewrite iw_peek_eq. destruct (next_char st1) as [c2|] eqn:Hc2; [|discriminate].
      destruct (N.eqb_spec c2 sep) as [->|Hsep].
      + rewrite iw_peek_eq. destruct (next_char (snd (iw_next (peeked st1)))) as [d|] eqn:Hd; [|discriminate].
        destruct (mem_char d first) eqn:Hf'; [|discriminate].
        specialize (IH (peeked (snd (iw_next (peeked st1))))).
        destruct (iter_collect _ _ _ _ _ fuel _) as [y st2]. cbn in IH |- *.
        assert (HH : y <> OutOfFuel).
        { apply IH. unfold peeked at 1. rewrite (proj1 (proj2 (peek_spec _))).
          rewrite (proj2 (next_spec _)). unfold peeked. rewrite (proj1 (proj2 (peek_spec _))).
          unfold next_char in Hc2. destruct (remaining st1) as [|? ?]; [discriminate|]. cbn in *. lia. }
        destruct y; cbn; congruence.
      + destruct (N.eqb_spec c2 stop) as [->|Hst]; [|discriminate].
        destruct fuel as [|fuel].
        { unfold next_char in Hc. destruct (remaining st); [discriminate|cbn in Hf; lia]. }
        rewrite iter_collect_stop by (right; rewrite next_char_peeked; exact Hc2). discriminate.
    - rewrite iw_peek_eq. destruct (next_char st1) as [c2|]; [|discriminate].
      destruct (N.eqb c2 sep).
      + rewrite iw_peek_eq. destruct (next_char (snd (iw_next (peeked st1)))) as [d|]; [|discriminate].
        destruct (mem_char d first); discriminate.
      + destruct (N.eqb c2 stop); discriminate.
  Qed.
End IterFacts.

(** ** [Parse::parse] *)
Lemma parse_with_ok {R} (take : iw -> res R take_error * iw) st v :
  parse_with take st = Ok v <-> fst (take st) = Ok v /\ remaining (snd (take st)) = [].
Proof.
  unfold parse_with. destruct (take st) as [x st1]. cbn.
  destruct x as [v'|e| |]; try (split; [discriminate|intros [H _]; discriminate]).
  destruct (peek_spec st1) as (P1 & _). rewrite P1.
  destruct (remaining st1) as [|c r]; cbn; split.
  - intros E. injection E as ->. auto.
  - intros [E _]. injection E as ->. reflexivity.
  - discriminate.
  - intros [_ E]. discriminate.
Qed.
Lemma parse_with_continues {R} (take : iw -> res R take_error * iw) st p :
  parse_with take st = Err (InputContinues p) <->
  (exists v, fst (take st) = Ok v) /\ remaining (snd (take st)) <> [] /\ p = iw_pos (snd (take st)).
Proof.
  unfold parse_with. destruct (take st) as [x st1]. cbn.
  destruct x as [v'|e| |]; try (split; [discriminate|intros ([v H] & _); discriminate]).
  destruct (peek_spec st1) as (P1 & _ & P3). rewrite P1.
  destruct (remaining st1) as [|c r]; cbn; split.
  - discriminate.
  - intros (_ & H & _). congruence.
  - intros E. injection E as <-. split; [eauto|]. split; [discriminate|]. exact P3.
  - intros (_ & _ & ->). unfold iw_pos. rewrite P3. reflexivity.
Qed.
Lemma parse_with_err {R} (take : iw -> res R take_error * iw) st e :
  parse_with take st = Err (PTake e) <-> fst (take st) = Err e.
Proof.
  unfold parse_with. destruct (take st) as [x st1]. cbn.
  destruct x as [v'|e'| |]; try (split; discriminate).
  - destruct (fst (iw_peek st1)); split; discriminate.
  - split; intros H; injection H as ->; reflexivity.
Qed.
