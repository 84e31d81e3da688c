(** * TableMore: termination, cost and error detection of the generated
    parsers; printing and conversions. *)
From Verif Require Export LeftFacts.

(** ** Ranks *)
Inductive ranked (tab : table) : nat -> nat -> Prop :=
| Ranked n x : (forall y, In y (lefts tab x) -> exists k, k < n /\ ranked tab k y) -> ranked tab n x.

Lemma ranked_le tab n n' x : n <= n' -> ranked tab n x -> ranked tab n' x.
Proof.
  intros Hle H. inversion H as [? ? Hy]; subst. constructor. intros y Hin. destruct (Hy y Hin) as (k & Hk & Hr). exists k. split; [lia|exact Hr].
Qed.
Lemma all_bound (P : nat -> nat -> Prop) l : (forall n n' x, n <= n' -> P n x -> P n' x) -> (forall x, In x l -> exists n, P n x) ->
  exists N, forall x, In x l -> P N x.
Proof.
  intros Hm. induction l as [|x l IH]; intros H; [exists 0; contradiction|].
  destruct (H x (or_introl eq_refl)) as [n Hn]. destruct IH as [N HN]; [intros y Hy; apply H; right; exact Hy|].
  exists (Nat.max n N). intros y [<-|Hy]; [apply (Hm n); [lia|exact Hn]|apply (Hm N); [lia|auto]].
Qed.
Lemma left_wf_ranked tab : left_wf tab -> forall x, exists n, ranked tab n x.
Proof.
  intros H x. induction (H x) as [x _ IH].
  destruct (all_bound (ranked tab) (lefts tab x) (ranked_le tab) IH) as [N HN].
  exists (S N). constructor. intros y Hy. exists N. split; [lia|auto].
Qed.
Lemma left_wf_bound tab : left_wf tab -> exists N, forall x, ranked tab N x.
Proof.
  intros H. destruct (all_bound (ranked tab) (seq 0 (length tab)) (ranked_le tab)) as [N HN].
  { intros x _. apply left_wf_ranked. exact H. }
  exists N. intros x. destruct (Nat.lt_ge_cases x (length tab)) as [Hx|Hx].
  - apply HN, in_seq. lia.
  - constructor. intros y Hy. rewrite lefts_out in Hy by exact Hx. contradiction.
Qed.

Section More.
  Variable tab : table.
  Variable tau : nat -> ty.
  Hypothesis Hok : forall id, id < length tab -> flat_ok tab tau id.

  (** What a successful first part consumes. *)
  Lemma cat_first_consumes id nm p x xs t : def_of tab id = Some (DCat nm p (x :: xs)) -> derives tab x t -> yield t <> [].
  Proof.
    intros Hd Ht. apply (def_ok tab tau Hok) in Hd as H. unfold flat_ok in H. rewrite Hd in H. destruct H as [[Hn _] _].
    pose proof (proj1 (derives_starts tab tau Hok) _ _ Ht) as Hs. unfold starts in Hs. destruct (yield t); [congruence|discriminate].
  Qed.
  Lemma cat_nonempty id nm p ids : def_of tab id = Some (DCat nm p ids) -> exists x xs, ids = x :: xs.
  Proof.
    intros Hd. apply (def_ok tab tau Hok) in Hd as H. unfold flat_ok in H. rewrite Hd in H. destruct ids; [destruct H as [[] _]|eauto].
  Qed.

  (** ** Termination *)
  Variable N : nat.
  Hypothesis Hrank : forall x, ranked tab N x.

  Lemma take_seq_total n L ids : (forall id u w st, at_cursor u w st -> length w <= L -> fst (take tab n id st) <> OutOfFuel) ->
    forall u w st, at_cursor u w st -> length w <= L -> fst (take_seq (take tab n) ids st) <> OutOfFuel.
  Proof.
    intros H. induction ids as [|id ids IH]; intros u w st Hc Hl; cbn [take_seq]; [discriminate|].
    pose proof (H id u w st Hc Hl) as H1. pose proof (take_sound tab n id u w st Hc) as Hs.
    destruct (take tab n id st) as [x st1]. cbn in H1. destruct Hs as (v & r & -> & Hc1 & _ & _).
    destruct x as [t|e| |]; try discriminate; [|contradiction].
    rewrite app_length in Hl. specialize (IH (u ++ v) r st1 Hc1 ltac:(lia)).
    destruct (take_seq (take tab n) ids st1) as [[ts|e| |] st2]; cbn in *; try discriminate. contradiction.
  Qed.

  Theorem take_total fuel : forall n id u w st, ranked tab n id -> n <= N -> at_cursor u w st -> length w * S N + n < fuel ->
    fst (take tab fuel id st) <> OutOfFuel.
  Proof.
    induction fuel as [|fuel IH]; intros n id u w st Hr Hn Hc Hf; [lia|].
    inversion Hr as [? ? Hl]; subst. cbn [take].
    assert (Hsub : forall y, In y (lefts tab id) -> forall st, at_cursor u w st -> fst (take tab fuel y st) <> OutOfFuel).
    { intros y Hy st0 Hc0. destruct (Hl y Hy) as (k & Hk & Hrk). apply (IH k y u w st0 Hrk); [lia|exact Hc0|lia]. }
    unfold lefts in Hsub.
    destruct (def_of tab id) as [[|s c|nm p ids|p ids fs nl al c|[j|]|f]|] eqn:Ed; try discriminate.
    - pose proof (consume_cursor s u w st Hc) as Hx. destruct (consume_str s st) as [x st']. destruct Hx as (v & r & _ & _ & _ & Hx & _).
      cbn. destruct x; try discriminate. contradiction.
    - destruct (cat_nonempty _ _ _ _ Ed) as (x & xs & ->). cbn [take_seq].
      pose proof (Hsub x (or_introl eq_refl) st Hc) as H1. pose proof (take_sound tab fuel x u w st Hc) as Hs.
      destruct (take tab fuel x st) as [q st1]. cbn in H1. destruct Hs as (v & r & -> & Hc1 & _ & Hv).
      destruct q as [t|e| |]; try discriminate; [|contradiction].
      destruct (Hv t eq_refl) as [Ht ->]. pose proof (cat_first_consumes _ _ _ _ _ _ Ed Ht) as Hne.
      assert (Hlen : length (yield t ++ r) = length (yield t) + length r) by apply app_length.
      assert (Hlt : S (length r) <= length (yield t ++ r)) by (destruct (yield t); [congruence|cbn in *; lia]).
      assert (Hm : S (length r) * S N <= length (yield t ++ r) * S N) by (apply Nat.mul_le_mono_r; exact Hlt).
      pose proof (take_seq_total fuel (length r) xs) as Hq.
      specialize (Hq ltac:(intros i u0 w0 st0 Hc0 Hl0; apply (IH N i u0 w0 st0 (Hrank i)); [lia|exact Hc0|];
        assert (length w0 * S N <= length r * S N) by (apply Nat.mul_le_mono_r; exact Hl0); cbn [Nat.mul] in Hm; lia)).
      specialize (Hq _ r st1 Hc1 (le_n _)).
      destruct (take_seq (take tab fuel) xs st1) as [[ts|e| |] st2]; cbn in *; try discriminate. contradiction.
    - destruct (peek_at _ _ _ Hc) as [_ P2]. destruct (iw_peek st) as [q st1]. cbn in P2.
      assert (Hb : forall k, fst (take_branch (take tab fuel) ids k st1) <> OutOfFuel).
      { intros k. unfold take_branch. destruct (nth_error ids k) as [j|] eqn:Ek; [|discriminate].
        pose proof (Hsub j (nth_error_In _ _ Ek) st1 P2) as H1. destruct (take tab fuel j st1) as [[t|e| |] st2]; cbn in *; try discriminate. contradiction. }
      destruct (match q with Some c0 => pick_arm c0 fs | None => None end) as [k|]; [apply Hb|].
      destruct nl as [k|]; [apply Hb|]. destruct q; discriminate.
    - apply (Hsub j (or_introl eq_refl) st Hc).
    - pose proof (Hsub f (or_introl eq_refl) st Hc) as H1. destruct (take tab fuel f st) as [[t|e| |] st2]; cbn in *; try discriminate. contradiction.
  Qed.

  (** ** Cost *)
  Definition arity (id : nat) : nat := match def_of tab id with Some (DCat _ _ ids) => length ids | _ => 0 end.
  Variable M : nat.
  Hypothesis Harity : forall id, arity id <= M.
  Let W := 1 + M * (N + 1).
  Let C := 1 + N * W.

  Definition cheap (f : nat -> iw -> res tree take_error * iw) (g : nat -> iw -> nat) (n id : nat) : Prop :=
    forall u w st, at_cursor u w st -> forall v r, w = v ++ r -> at_cursor (u ++ v) r (snd (f id st)) ->
    (v = [] -> g id st <= n + 1) /\ (v <> [] -> g id st + (N - n) * W <= C * length v).

  Lemma cheap_any f g id n : n <= N -> cheap f g n id -> forall u w st, at_cursor u w st -> forall v r, w = v ++ r -> at_cursor (u ++ v) r (snd (f id st)) ->
    g id st <= C * length v + (N + 1).
  Proof.
    intros Hn H u w st Hc v r Hw Hr. destruct (H u w st Hc v r Hw Hr) as [H1 H2].
    destruct v as [|c v]; [specialize (H1 eq_refl); cbn; lia|specialize (H2 ltac:(discriminate)); lia].
  Qed.

  Lemma at_cursor_rest u r u' r' st : at_cursor u r st -> at_cursor u' r' st -> r = r'.
  Proof. intros [H _] [H' _]. congruence. Qed.

  Lemma calls_seq_bound n ids : (forall id, cheap (take tab n) (calls tab n) N id) ->
    forall u w st, at_cursor u w st -> forall v r, w = v ++ r -> at_cursor (u ++ v) r (snd (take_seq (take tab n) ids st)) ->
    calls_seq (take tab n) (calls tab n) ids st <= C * length v + length ids * (N + 1).
  Proof.
    intros H. induction ids as [|id ids IH]; intros u w st Hc v r Hw Hr; cbn [take_seq calls_seq] in *; [lia|].
    pose proof (take_sound tab n id u w st Hc) as Hs. pose proof (cheap_any _ _ _ N (le_n _) (H id) u w st Hc) as Hch.
    destruct (take tab n id st) as [x st1]. destruct Hs as (v1 & r1 & Hw1 & Hc1 & _ & _). specialize (Hch v1 r1 Hw1 Hc1).
    destruct x as [t|e| |].
    - pose proof (take_seq_sound tab (take tab n) ids (fun i _ => take_sound tab n i) _ _ _ Hc1) as Hs2.
      destruct (take_seq (take tab n) ids st1) as [y st2] eqn:E2. destruct Hs2 as (v2 & r2 & Hw2 & Hc2 & _ & _).
      cbn in Hr. pose proof (at_cursor_rest _ _ _ _ _ Hr Hc2) as <-.
      assert (v = v1 ++ v2) as ->.
      { apply (app_inv_tail r). rewrite <- app_assoc, <- Hw2, <- Hw1. symmetry. exact Hw. }
      specialize (IH (u ++ v1) r1 st1 Hc1 v2 r Hw2). rewrite E2 in IH. rewrite <- app_assoc in IH. specialize (IH Hr).
      rewrite app_length, Nat.mul_add_distr_l. cbn [length]. lia.
    - cbn in Hr. pose proof (at_cursor_rest _ _ _ _ _ Hr Hc1) as <-. rewrite Hw in Hw1. apply app_inv_tail in Hw1. subst v1. cbn [length]. lia.
    - cbn in Hr. pose proof (at_cursor_rest _ _ _ _ _ Hr Hc1) as <-. rewrite Hw in Hw1. apply app_inv_tail in Hw1. subst v1. cbn [length]. lia.
    - cbn in Hr. pose proof (at_cursor_rest _ _ _ _ _ Hr Hc1) as <-. rewrite Hw in Hw1. apply app_inv_tail in Hw1. subst v1. cbn [length]. lia.
  Qed.

  Lemma step_cost k n x q : k < n -> n <= N -> x + (N - k) * W <= C * q -> x + (N - n) * W + W <= C * q.
  Proof.
    intros Hk Hn H. assert ((N - k) = (N - n) + (n - k)) as E by lia. rewrite E, Nat.mul_add_distr_r in H.
    assert (W <= (n - k) * W) by (destruct (n - k) as [|d] eqn:Ed; [lia|cbn; lia]). lia.
  Qed.

  Theorem calls_cheap fuel : forall n id, ranked tab n id -> n <= N -> cheap (take tab fuel) (calls tab fuel) n id.
  Proof.
    induction fuel as [|fuel IH]; intros n id Hr Hn u w st Hc v r Hw Hcv.
    { cbn in *. pose proof (at_cursor_rest _ _ _ _ _ Hc Hcv) as E. subst w. destruct v as [|c v].
      - split; [lia|congruence].
      - exfalso. apply (f_equal (@length _)) in E. rewrite app_length in E. cbn in E. lia. }
    inversion Hr as [? ? Hl]; subst n0 x. cbn [take calls] in *.
    assert (HW1 : 1 <= W) by (unfold W; lia).
    assert (Hone : 1 + (N - n) * W <= C).
    { unfold C. assert ((N - n) * W <= N * W) by (apply Nat.mul_le_mono_r; lia). lia. }
    assert (Hsimple : forall x, x <= 1 -> (v = [] -> x <= n + 1) /\ (v <> [] -> x + (N - n) * W <= C * length v)).
    { intros x Hx. split; [lia|]. intros Hv. destruct v as [|c v]; [congruence|]. cbn [length]. 
      assert (C <= C * S (length v)) by (rewrite <- (Nat.mul_1_r C) at 1; apply Nat.mul_le_mono_l; lia). lia. }
    assert (Hsub : forall y, In y (lefts tab id) -> forall u w st, at_cursor u w st -> forall v r, w = v ++ r ->
      at_cursor (u ++ v) r (snd (take tab fuel y st)) ->
      (v = [] -> calls tab fuel y st <= n) /\ (v <> [] -> calls tab fuel y st + (N - n) * W + W <= C * length v)).
    { intros y Hy u0 w0 st0 Hc0 v0 r0 Hw0 Hr0. destruct (Hl y Hy) as (k & Hk & Hrk).
      destruct (IH k y Hrk ltac:(lia) u0 w0 st0 Hc0 v0 r0 Hw0 Hr0) as [H1 H2]. split; intros Hv.
      - specialize (H1 Hv). lia.
      - apply (step_cost k); auto. }
    unfold lefts in Hsub.
    destruct (def_of tab id) as [[|s c|nm p ids|p ids fs nl al c|[j|]|f]|] eqn:Ed; try (apply Hsimple; lia).
    - destruct (cat_nonempty _ _ _ _ Ed) as (x & xs & ->). cbn [take_seq calls_seq] in *.
      specialize (Hsub x (or_introl eq_refl) u w st Hc).
      pose proof (take_sound tab fuel x u w st Hc) as Hs. destruct (take tab fuel x st) as [q st1].
      destruct Hs as (v1 & r1 & Hw1 & Hc1 & _ & Hv1). specialize (Hsub v1 r1 Hw1 Hc1).
      assert (Hstop : at_cursor (u ++ v) r st1 -> (v = [] -> 1 + (calls tab fuel x st + 0) <= n + 1)
        /\ (v <> [] -> 1 + (calls tab fuel x st + 0) + (N - n) * W <= C * length v)).
      { intros Hr1. pose proof (at_cursor_rest _ _ _ _ _ Hr1 Hc1) as <-. rewrite Hw in Hw1. apply app_inv_tail in Hw1. subst v1.
        destruct Hsub as [S1 S2]. split; intros Hv; [specialize (S1 Hv)|specialize (S2 Hv)]; lia. }
      destruct q as [t|e| |]; try (apply Hstop; exact Hcv).
      destruct (Hv1 t eq_refl) as [Ht ->]. pose proof (cat_first_consumes _ _ _ _ _ _ Ed Ht) as Hne.
      destruct Hsub as [_ Hsub]. specialize (Hsub Hne).
      pose proof (take_seq_sound tab (take tab fuel) xs (fun i _ => take_sound tab fuel i) _ _ _ Hc1) as Hs2.
      pose proof (calls_seq_bound fuel xs (fun i => IH N i (Hrank i) (le_n _)) _ _ _ Hc1) as Hb.
      destruct (take_seq (take tab fuel) xs st1) as [y st2]. destruct Hs2 as (v2 & r2 & Hw2 & Hc2 & _ & _).
      cbn in Hcv. pose proof (at_cursor_rest _ _ _ _ _ Hcv Hc2) as <-.
      assert (v = yield t ++ v2) as ->.
      { apply (app_inv_tail r). rewrite <- app_assoc, <- Hw2, <- Hw1. symmetry. exact Hw. }
      cbn in Hb. specialize (Hb v2 r Hw2). rewrite <- app_assoc in Hb. specialize (Hb Hcv).
      split; [intros E; apply app_eq_nil in E; tauto|]. intros _.
      rewrite app_length, Nat.mul_add_distr_l.
      pose proof (Harity id) as Ha. unfold arity in Ha. rewrite Ed in Ha. cbn [length] in Ha.
      assert (length xs * (N + 1) <= M * (N + 1)) by (apply Nat.mul_le_mono_r; lia).
      unfold W in Hsub at 2. lia.
    - destruct (peek_at _ _ _ Hc) as [_ P2]. destruct (iw_peek st) as [q st1]. cbn in P2.
      assert (Hb : forall k, at_cursor (u ++ v) r (snd (take_branch (take tab fuel) ids k st1)) ->
        (v = [] -> 1 + match nth_error ids k with Some j => calls tab fuel j st1 | None => 0 end <= n + 1)
        /\ (v <> [] -> 1 + match nth_error ids k with Some j => calls tab fuel j st1 | None => 0 end + (N - n) * W <= C * length v)).
      { intros k. unfold take_branch. destruct (nth_error ids k) as [j|] eqn:Ek; [|intros _; apply Hsimple; lia].
        intros Hk. destruct (Hsub j (nth_error_In _ _ Ek) u w st1 P2 v r Hw) as [S1 S2].
        - destruct (take tab fuel j st1); exact Hk.
        - split; intros Hv; [specialize (S1 Hv)|specialize (S2 Hv)]; lia. }
      destruct (match q with Some c0 => pick_arm c0 fs | None => None end) as [k|]; [apply Hb; exact Hcv|].
      destruct nl as [k|]; [apply Hb; exact Hcv|]. apply Hsimple; lia.
    - destruct (Hsub j (or_introl eq_refl) u w st Hc v r Hw Hcv) as [S1 S2].
      split; intros Hv; [specialize (S1 Hv)|specialize (S2 Hv)]; lia.
    - destruct (Hsub f (or_introl eq_refl) u w st Hc v r Hw) as [S1 S2]; [destruct (take tab fuel f st); exact Hcv|].
      split; intros Hv; [specialize (S1 Hv)|specialize (S2 Hv)]; lia.
  Qed.

  Corollary calls_linear fuel id u w st v r : at_cursor u w st -> w = v ++ r -> at_cursor (u ++ v) r (snd (take tab fuel id st)) ->
    calls tab fuel id st <= (C + N + 1) * (length v + 1).
  Proof.
    intros Hc Hw Hr. pose proof (cheap_any _ _ id N (le_n _) (calls_cheap fuel N id (Hrank id) (le_n _)) u w st Hc v r Hw Hr). nia.
  Qed.
End More.

(** A bound on the number of parts. *)
Lemma arity_bound tab : exists M, forall id, arity tab id <= M.
Proof.
  destruct (all_bound (fun n id => arity tab id <= n) (seq 0 (length tab))) as [M HM].
  - intros; lia.
  - intros x _. eauto.
  - exists M. intros id. destruct (Nat.lt_ge_cases id (length tab)) as [H|H]; [apply HM, in_seq; lia|].
    unfold arity, def_of. rewrite (proj2 (nth_error_None _ _) H). cbn. lia.
Qed.

(** ** What is not read does not matter *)
Section Prefix.
  Variable tab : table.

  Definition det_at (f : nat -> iw -> res tree take_error * iw) (id : nat) : Prop :=
    forall u v r r' st1 st2, at_cursor u (v ++ r) st1 -> at_cursor u (v ++ r') st2 -> hd_error r = hd_error r' ->
    at_cursor (u ++ v) r (snd (f id st1)) ->
    fst (f id st2) = fst (f id st1) /\ at_cursor (u ++ v) r' (snd (f id st2)).

  Lemma lcp_hd s v r r' : hd_error r = hd_error r' -> lcp s (v ++ r) = v -> lcp s (v ++ r') = v.
  Proof.
    revert v. induction s as [|c s IH]; intros v Hh; [destruct v; cbn; auto; discriminate|].
    destruct v as [|d v].
    - cbn [app]. destruct r as [|x r], r' as [|x' r']; cbn in Hh; try discriminate; auto. injection Hh as <-.
      cbn [lcp]. destruct (N.eqb c x); [discriminate|reflexivity].
    - cbn [app lcp]. destruct (N.eqb c d); [|discriminate]. intros E. injection E as E1 E. subst d. f_equal. auto.
  Qed.
  Lemma hd_app (v r r' : rstr) : hd_error r = hd_error r' -> hd_error (v ++ r) = hd_error (v ++ r').
  Proof. destruct v; auto. Qed.

  Lemma consume_det s u v r r' st1 st2 : at_cursor u (v ++ r) st1 -> at_cursor u (v ++ r') st2 -> hd_error r = hd_error r' ->
    at_cursor (u ++ v) r (snd (consume_str s st1)) ->
    fst (consume_str s st2) = fst (consume_str s st1) /\ at_cursor (u ++ v) r' (snd (consume_str s st2)).
  Proof.
    intros H1 H2 Hh. destruct (consume_loop_spec s s 0 _ _ _ H1) as (q & Hq & X). destruct (consume_loop_spec s s 0 _ _ _ H2) as (q' & Hq' & X').
    cbv zeta in *. unfold consume_str. destruct (consume_loop s s 0 st1) as [x st1']. destruct (consume_loop s s 0 st2) as [x' st2'].
    cbn [fst snd]. intros Hr. destruct X as [X1 X2], X' as [X1' X2'].
    pose proof (at_cursor_rest _ _ _ _ _ Hr X1) as E. subst q. apply app_inv_tail in Hq. symmetry in Hq.
    pose proof (lcp_hd s v r r' Hh Hq) as Hq2. rewrite Hq2 in *. rewrite Hq in *. apply app_inv_head in Hq'. subst q'.
    split; [|exact X1'].
    assert (Hp : iw_pos st2' = iw_pos st1').
    { unfold iw_pos. rewrite (proj2 X1), (proj2 X1'), Hh. reflexivity. }
    destruct r as [|c r], r' as [|c' r']; cbn in Hh; try discriminate.
    - destruct (Nat.eqb _ _); congruence.
    - injection Hh as <-. destruct (Nat.eqb _ _); [congruence|]. destruct (byte_prefix s _); congruence.
  Qed.

  Lemma take_seq_det f ids : (forall id, sound_at tab f id) -> (forall id, det_at f id) ->
    forall u v r r' st1 st2, at_cursor u (v ++ r) st1 -> at_cursor u (v ++ r') st2 -> hd_error r = hd_error r' ->
    at_cursor (u ++ v) r (snd (take_seq f ids st1)) ->
    fst (take_seq f ids st2) = fst (take_seq f ids st1) /\ at_cursor (u ++ v) r' (snd (take_seq f ids st2)).
  Proof.
    intros Hs Hd. induction ids as [|id ids IH]; intros u v r r' st1 st2 H1 H2 Hh; cbn [take_seq].
    - cbn. intros Hr. pose proof (at_cursor_rest _ _ _ _ _ H1 Hr) as E.
      assert (v = []) as -> by (destruct v; [reflexivity|]; apply (f_equal (@length _)) in E; cbn in E; rewrite app_length in E; lia).
      split; [reflexivity|]. rewrite app_nil_r. exact H2.
    - pose proof (Hs id u _ _ H1) as S1. destruct (f id st1) as [x s1] eqn:E1.
      destruct S1 as (v1 & r1 & Hw1 & C1 & _ & _).
      assert (Hsplit : forall v2, r1 = v2 ++ r -> v = v1 ++ v2).
      { intros v2 ->. apply (app_inv_tail r). rewrite <- app_assoc. exact Hw1. }
      destruct x as [t|e| |].
      + pose proof (take_seq_sound tab f ids (fun i _ => Hs i) _ _ _ C1) as S2. specialize (IH (u ++ v1)).
        destruct (take_seq f ids s1) as [y s2] eqn:E2. destruct S2 as (v2 & r2 & Hw2 & C2 & _ & _).
        cbn [fst snd]. intros Hr. pose proof (at_cursor_rest _ _ _ _ _ Hr C2) as <-. rewrite (Hsplit v2 Hw2) in *.
        rewrite <- app_assoc in H1, H2. rewrite Hw2 in C1.
        pose proof (Hd id u v1 (v2 ++ r) (v2 ++ r') st1 st2 H1 H2 (hd_app v2 _ _ Hh)) as D. rewrite E1 in D. cbn in D. destruct (D C1) as [D1 D2].
        destruct (f id st2) as [x' s1']. cbn in D1, D2. subst x'.
        rewrite app_assoc in Hr. specialize (IH v2 r r' s1 s1' C1 D2 Hh). rewrite E2 in IH. cbn in IH. destruct (IH Hr) as [IH1 IH2].
        destruct (take_seq f ids s1') as [y' s2']. cbn in *. subst y'. rewrite app_assoc. auto.
      + cbn [fst snd]. intros Hr. pose proof (at_cursor_rest _ _ _ _ _ Hr C1) as <-. pose proof (Hsplit [] eq_refl) as Ev. rewrite app_nil_r in Ev. subst v1.
        pose proof (Hd id u v r r' st1 st2 H1 H2 Hh) as D. rewrite E1 in D. destruct (D Hr) as [D1 D2].
        destruct (f id st2) as [x' s1']. cbn in D1, D2. subst x'. auto.
      + cbn [fst snd]. intros Hr. pose proof (at_cursor_rest _ _ _ _ _ Hr C1) as <-. pose proof (Hsplit [] eq_refl) as Ev. rewrite app_nil_r in Ev. subst v1.
        pose proof (Hd id u v r r' st1 st2 H1 H2 Hh) as D. rewrite E1 in D. destruct (D Hr) as [D1 D2].
        destruct (f id st2) as [x' s1']. cbn in D1, D2. subst x'. auto.
      + cbn [fst snd]. intros Hr. pose proof (at_cursor_rest _ _ _ _ _ Hr C1) as <-. pose proof (Hsplit [] eq_refl) as Ev. rewrite app_nil_r in Ev. subst v1.
        pose proof (Hd id u v r r' st1 st2 H1 H2 Hh) as D. rewrite E1 in D. destruct (D Hr) as [D1 D2].
        destruct (f id st2) as [x' s1']. cbn in D1, D2. subst x'. auto.
  Qed.

  Theorem take_det fuel : forall id, det_at (take tab fuel) id.
  Proof.
    induction fuel as [|n IH]; intros id u v r r' st1 st2 H1 H2 Hh; cbn [take].
    { intros Hr. cbn in Hr. pose proof (at_cursor_rest _ _ _ _ _ H1 Hr) as E.
      assert (v = []) as -> by (destruct v; [reflexivity|]; apply (f_equal (@length _)) in E; cbn in E; rewrite app_length in E; lia).
      split; [reflexivity|]. cbn. rewrite app_nil_r. exact H2. }
    assert (Hstay : forall s1 s2, at_cursor u (v ++ r) s1 -> at_cursor u (v ++ r') s2 -> at_cursor (u ++ v) r s1 -> v = [] /\ at_cursor (u ++ v) r' s2 /\ iw_pos s1 = iw_pos s2).
    { intros s1 s2 Hc1 Hc2 Hr. pose proof (at_cursor_rest _ _ _ _ _ Hc1 Hr) as E.
      assert (v = []) as -> by (destruct v; [reflexivity|]; apply (f_equal (@length _)) in E; cbn in E; rewrite app_length in E; lia).
      split; [reflexivity|]. rewrite app_nil_r. split; [exact Hc2|]. unfold iw_pos. rewrite (proj2 Hc1), (proj2 Hc2). cbn. rewrite Hh. reflexivity. }
    destruct (def_of tab id) as [[|s c|nm p ids|p ids fs nl al c|[j|]|f]|].
    - intros Hr. destruct (Hstay st1 st2 H1 H2 Hr) as (_ & Hc & _). auto.
    - pose proof (consume_det s u v r r' st1 st2 H1 H2 Hh) as D.
      destruct (consume_str s st1) as [x s1], (consume_str s st2) as [x' s2]. cbn [fst snd] in *. intros Hr.
      destruct (D Hr) as [-> D2]. auto.
    - pose proof (take_seq_det (take tab n) ids (take_sound tab n) IH u v r r' st1 st2 H1 H2 Hh) as D.
      destruct (take_seq (take tab n) ids st1) as [x s1], (take_seq (take tab n) ids st2) as [x' s2]. cbn [fst snd] in *. intros Hr.
      destruct (D Hr) as [-> D2]. auto.
    - destruct (peek_at _ _ _ H1) as [P1 Q1]. destruct (peek_at _ _ _ H2) as [P2 Q2].
      destruct (iw_peek st1) as [q1 s1], (iw_peek st2) as [q2 s2]. cbn [fst snd] in *.
      assert (q2 = q1) as -> by (rewrite P1, P2; symmetry; apply hd_app; exact Hh).
      assert (Hbr : forall k, at_cursor (u ++ v) r (snd (take_branch (take tab n) ids k s1)) ->
        fst (take_branch (take tab n) ids k s2) = fst (take_branch (take tab n) ids k s1)
        /\ at_cursor (u ++ v) r' (snd (take_branch (take tab n) ids k s2))).
      { intros k. unfold take_branch. destruct (nth_error ids k) as [j|].
        - pose proof (IH j u v r r' s1 s2 Q1 Q2 Hh) as D. destruct (take tab n j s1) as [x t1], (take tab n j s2) as [x' t2].
          cbn [fst snd] in *. intros Hr. destruct (D Hr) as [-> D2]. auto.
        - intros Hr. destruct (Hstay s1 s2 Q1 Q2 Hr) as (_ & Hc & _). auto. }
      destruct (match q1 with Some c0 => pick_arm c0 fs | None => None end) as [k|]; [apply Hbr|].
      destruct nl as [k|]; [apply Hbr|].
      destruct q1; cbn [fst snd]; intros Hr; destruct (Hstay s1 s2 Q1 Q2 Hr) as (_ & Hc & ->); auto.
    - apply IH; assumption.
    - intros Hr. destruct (Hstay st1 st2 H1 H2 Hr) as (_ & Hc & _). auto.
    - pose proof (IH f u v r r' st1 st2 H1 H2 Hh) as D. destruct (take tab n f st1) as [x s1], (take tab n f st2) as [x' s2].
      cbn [fst snd] in *. intros Hr. destruct (D Hr) as [-> D2]. auto.
    - intros Hr. destruct (Hstay st1 st2 H1 H2 Hr) as (_ & Hc & _). auto.
  Qed.
End Prefix.

(** ** Earliest error *)
Section Earliest.
  Variable tab : table.
  Variable tau : nat -> ty.
  Hypothesis Hok : forall id, id < length tab -> flat_ok tab tau id.

  (** A failing run: no word goes on that way. *)
  Theorem take_earliest fuel id s v r x st' : s = v ++ r -> take tab fuel id (iw_new s) = (x, st') -> x <> OutOfFuel ->
    at_cursor v r st' -> (forall t, x = Ok t -> r <> []) ->
    forall t z, derives tab id t -> hd_error z = hd_error r -> yield t <> v ++ z.
  Proof.
    intros Hs E Hx Hr Hcont t z Ht Hz Hy.
    pose proof (at_cursor_new (yield t)) as Hc.
    assert (Hc' : at_cursor [] (yield t ++ []) (iw_new (yield t))) by (rewrite app_nil_r; exact Hc).
    destruct (proj1 (take_complete tab tau Hok) id t Ht [] [] _ Hc') as [f0 Hf0].
    { intros c Hcc. discriminate. }
    destruct (Hf0 (Nat.max f0 fuel)) as (st2 & E2 & C2); [lia|].
    pose proof (at_cursor_new s) as Hcs.
    rewrite Hs in Hcs. rewrite Hy in Hc at 1.
    pose proof (take_det tab fuel id [] v r z (iw_new (v ++ r)) (iw_new (yield t)) Hcs Hc (eq_sym Hz)) as D.
    rewrite Hs in E. rewrite E in D. cbn in D. destruct (D Hr) as [D1 D2].
    assert (Hmono : take tab (Nat.max f0 fuel) id (iw_new (yield t)) = take tab fuel id (iw_new (yield t))).
    { apply take_mono; [lia|]. unfold not_out. rewrite D1. exact Hx. }
    rewrite E2 in Hmono. rewrite <- Hmono in D1, D2. cbn in D1, D2. subst x.
    specialize (Hcont t eq_refl). pose proof (at_cursor_rest _ _ _ _ _ C2 D2) as Ez. subst z. destruct r; [congruence|discriminate].
  Qed.
End Earliest.

(** ** Printing *)
Section Print.
  Variable tab : table.

  Lemma print_seq_mono (f g : nat -> tree -> option rstr) ids : (forall id t s, f id t = Some s -> g id t = Some s) ->
    forall ts s, print_seq f ids ts = Some s -> print_seq g ids ts = Some s.
  Proof.
    intros H. induction ids as [|id ids IH]; intros [|t ts] s; cbn; auto.
    destruct (f id t) as [a|] eqn:E; [|discriminate]. rewrite (H _ _ _ E).
    destruct (print_seq f ids ts) as [b|] eqn:E2; [|discriminate]. rewrite (IH _ _ E2). auto.
  Qed.
  Lemma to_string_S fuel : forall id t s, to_string tab fuel id t = Some s -> to_string tab (S fuel) id t = Some s.
  Proof.
    induction fuel as [|n IH]; intros id t s E; [discriminate|].
    assert (Hu : forall k, to_string tab (S k) id t = match def_of tab id, t with
      | Some DEps, NEps => Some []
      | Some (DLit s _), NLit s' => if rstr_eqb s s' then Some s else None
      | Some (DCat _ _ ids), NCat ts => print_seq (to_string tab k) ids ts
      | Some (DAlt _ ids _ _ _ _), NAlt i t' => match nth_error ids i with Some j => to_string tab k j t' | None => None end
      | Some (DFix (Some j)), _ => to_string tab k j t
      | Some (DBox f), NBox t' => to_string tab k f t'
      | _, _ => None end) by reflexivity.
    rewrite Hu in E. rewrite Hu. clear Hu.
    destruct (def_of tab id) as [[|l c|nm p ids|p ids fs nl al c|[j|]|f]|]; try (apply IH; exact E); destruct t; try discriminate; auto.
    - eapply print_seq_mono; [|exact E]. exact IH.
    - destruct (nth_error ids _); [|discriminate]. apply IH. exact E.
  Qed.
  Lemma to_string_mono fuel fuel' id t s : fuel <= fuel' -> to_string tab fuel id t = Some s -> to_string tab fuel' id t = Some s.
  Proof. induction 1; intros E; auto. apply to_string_S. auto. Qed.

  Theorem to_string_yield :
    (forall id t, derives tab id t -> exists fuel, forall fuel', fuel <= fuel' -> to_string tab fuel' id t = Some (yield t)) /\
    (forall ids ts, derives_seq tab ids ts -> exists fuel, forall fuel', fuel <= fuel' -> print_seq (to_string tab fuel') ids ts = Some (flat_map yield ts)).
  Proof.
    apply derives_mutind.
    - intros id Hd. exists 1. intros [|n] Hle; [lia|]. cbn. rewrite Hd. reflexivity.
    - intros id s c Hd. exists 1. intros [|n] Hle; [lia|]. cbn. rewrite Hd, rstr_eqb_refl. reflexivity.
    - intros id nm p ids ts Hd _ [f Hf]. exists (S f). intros [|n] Hle; [lia|]. cbn. rewrite Hd. apply Hf. lia.
    - intros id p ids fs nl al c k j t Hd Hk _ [f Hf]. exists (S f). intros [|n] Hle; [lia|]. cbn. rewrite Hd, Hk. apply Hf. lia.
    - intros id j t Hd _ [f Hf]. exists (S f). intros [|n] Hle; [lia|]. cbn [to_string]. rewrite Hd. apply Hf. lia.
    - intros id f0 t Hd _ [f Hf]. exists (S f). intros [|n] Hle; [lia|]. cbn. rewrite Hd. apply Hf. lia.
    - exists 0. reflexivity.
    - intros id ids t ts _ [f1 H1] _ [f2 H2]. exists (Nat.max f1 f2). intros f' Hle. cbn.
      rewrite H1, H2 by lia. reflexivity.
  Qed.

  Lemma print_seq_sound f ids : (forall id t s, f id t = Some s -> derives tab id t /\ s = yield t) ->
    forall ts s, print_seq f ids ts = Some s -> derives_seq tab ids ts /\ s = flat_map yield ts.
  Proof.
    intros H. induction ids as [|id ids IH]; intros [|t ts] s; cbn; try discriminate.
    - intros E. injection E as <-. split; [constructor|reflexivity].
    - destruct (f id t) as [a|] eqn:E; [|discriminate]. destruct (print_seq f ids ts) as [b|] eqn:E2; [|discriminate].
      intros E3. injection E3 as <-. destruct (H _ _ _ E) as [H1 ->]. destruct (IH _ _ E2) as [H2 ->]. split; [constructor; auto|reflexivity].
  Qed.
  Theorem to_string_sound fuel : forall id t s, to_string tab fuel id t = Some s -> derives tab id t /\ s = yield t.
  Proof.
    induction fuel as [|n IH]; intros id t s E; [discriminate|]. cbn [to_string] in E.
    destruct (def_of tab id) as [[|l c|nm p ids|p ids fs nl al c|[j|]|f]|] eqn:Ed;
      try (destruct (IH _ _ _ E) as [H1 H2]; split; [eapply derives_fix; eauto|exact H2]);
      destruct t; try discriminate.
    - injection E as <-. split; [constructor; exact Ed|reflexivity].
    - destruct (rstr_eqb l s0) eqn:El; [|discriminate]. apply rstr_eqb_eq in El. injection E as <-. subst s0. split; [econstructor; exact Ed|reflexivity].
    - destruct (print_seq_sound _ ids IH _ _ E) as [H1 H2]. split; [econstructor; eauto|exact H2].
    - destruct (nth_error ids _) as [j|] eqn:Ek; [|discriminate]. destruct (IH _ _ _ E) as [H1 H2]. split; [econstructor; eauto|exact H2].
    - destruct (IH _ _ _ E) as [H1 H2]. split; [eapply derives_box; eauto|exact H2].
  Qed.

  (** ** Conversions to [char] *)
  Theorem to_char_yield : (forall id, id < length tab -> char_ok tab id) ->
    forall id t, derives tab id t -> has_char tab id = true -> exists c, to_char tab id t = Some c /\ yield t = [c].
  Proof.
    intros Hc. apply (derives_mind tab (fun id t _ => has_char tab id = true -> exists c, to_char tab id t = Some c /\ yield t = [c]) (fun _ _ _ => True)); auto.
    - intros id Hd. unfold has_char. rewrite Hd. discriminate.
    - intros id s c Hd. unfold has_char. rewrite Hd. intros H. pose proof (Hc id (def_of_lt _ _ _ Hd)) as Hk.
      unfold char_ok in Hk. rewrite Hd in Hk. destruct c as [c|]; [|discriminate]. exists c. cbn. rewrite Hd. split; [reflexivity|].
      destruct s as [|x [|y s]]; try discriminate. injection Hk as ->. reflexivity.
    - intros id n p ids ts Hd _ _. unfold has_char. rewrite Hd. discriminate.
    - intros id p ids f n a c k j t Hd Hk Ht IH. unfold has_char. rewrite Hd. intros H. destruct c; [|discriminate].
      pose proof (Hc id (def_of_lt _ _ _ Hd)) as Hk'. unfold char_ok in Hk'. rewrite Hd in Hk'. symmetry in Hk'.
      rewrite forallb_forall in Hk'. destruct (IH (Hk' j (nth_error_In _ _ Hk))) as (c & H1 & H2).
      exists c. cbn [to_char yield]. rewrite Hd, Hk. auto.
    - intros id j t Hd _ _. unfold has_char. rewrite Hd. discriminate.
    - intros id f t Hd _ _. unfold has_char. rewrite Hd. discriminate.
  Qed.
  Lemma to_char_has id t c : to_char tab id t = Some c -> has_char tab id = true.
  Proof.
    destruct t; cbn; unfold has_char; destruct (def_of tab id) as [[|l [k|]|nm p ids|p ids fs nl al [|]|[j|]|f]|]; try discriminate; auto.
  Qed.
End Print.

(** ** Finite size *)
Lemma contains_smaller tab m : (forall id, id < length tab -> good tab m id) ->
  forall i j, In j (contains tab i) -> sz m j < sz m i.
Proof.
  intros Hg i j Hj. destruct (Nat.lt_ge_cases i (length tab)) as [Hi|Hi].
  - destruct (Hg i Hi) as (Hf & Hs & _). unfold contains, mentions in Hj. unfold size_ok in Hs.
    assert (Hin : forall ids, In j ids -> sz m j < S (list_sum (map (sz m) ids))).
    { intros ids. induction ids as [|x ids IH]; intros []; change (list_sum (map (sz m) (x :: ids))) with (sz m x + list_sum (map (sz m) ids));
        [subst; lia|]. specialize (IH H). lia. }
    destruct (def_of tab i) as [[|l c|nm p ids|p ids fs nl al c|[k|]|f]|]; try contradiction.
    + rewrite Hs. apply Hin. exact Hj.
    + rewrite Hs. apply Hin. exact Hj.
    + destruct Hj as [<-|[]]. lia.
  - unfold contains, mentions, def_of in Hj. rewrite (proj2 (nth_error_None _ _) Hi) in Hj. contradiction.
Qed.
