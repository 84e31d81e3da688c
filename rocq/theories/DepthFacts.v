(** * DepthFacts: nesting of calls and height of values. *)
From Verif Require Import Depth SpecDepth TableFacts TableMore.
From Coq Require Import List Lia PeanoNat.

Section Depth.
  Variable tab : table.

  Lemma depth_seq_height n ids : (forall id st t st', take tab n id st = (Ok t, st') -> depth tab n id st = height t) ->
    forall st ts st', take_seq (take tab n) ids st = (Ok ts, st') -> depth_seq (take tab n) (depth tab n) ids st = fold_right Nat.max 0 (map height ts).
  Proof.
    intros H. induction ids as [| id ids IH]; intros st ts st' E; cbn [take_seq depth_seq] in *.
    - injection E as <- <-. reflexivity.
    - destruct (take tab n id st) as [[t | e | |] st1] eqn:E1; try discriminate. destruct (take_seq (take tab n) ids st1) as [[ts' | e | |] st2] eqn:E2; try discriminate.
      cbn in E. injection E as <- <-. cbn [map fold_right]. now rewrite (H _ _ _ _ E1), (IH _ _ _ E2).
  Qed.
  Theorem depth_height fuel : forall id st t st', take tab fuel id st = (Ok t, st') -> depth tab fuel id st = height t.
  Proof.
    induction fuel as [| n IH]; intros id st t st' E; cbn [take depth] in *; [discriminate |].
    destruct (def_of tab id) as [[|s c|nm p ids|p ids fs nl al c|[j|]|f]|]; try discriminate.
    - injection E as <- <-. reflexivity.
    - destruct (consume_str s st) as [[[] | e | |] st1]; try discriminate. injection E as <- <-. reflexivity.
    - destruct (take_seq (take tab n) ids st) as [[ts | e | |] st1] eqn:E1; try discriminate. injection E as <- <-. cbn [height]. f_equal. eapply depth_seq_height; eauto.
    - destruct (iw_peek st) as [q st1].
      assert (B : forall k, take_branch (take tab n) ids k st1 = (Ok t, st') -> 1 + match nth_error ids k with Some j => depth tab n j st1 | None => 0 end = height t).
      { intros k. unfold take_branch. destruct (nth_error ids k) as [j |]; [| discriminate]. destruct (take tab n j st1) as [[v | e | |] st2] eqn:E2; try discriminate. cbn. intros [= <- <-]. cbn. f_equal. eauto. }
      destruct (match q with Some c0 => pick_arm c0 fs | None => None end) as [k |]; [auto |]. destruct nl as [k |]; [auto |]. destruct q; discriminate.
    - eauto.
    - destruct (take tab n f st) as [[v | e | |] st1] eqn:E1; try discriminate. injection E as <- <-. cbn. f_equal. eauto.
  Qed.

  Theorem fmt_height fuel : forall id t s, to_string tab fuel id t = Some s -> fmt_depth tab fuel id t = height t.
  Proof.
    induction fuel as [| n IH]; intros id t s E; cbn [to_string fmt_depth] in *; [discriminate |].
    destruct (def_of tab id) as [[|w c|nm p ids|p ids fs nl al c|[j|]|f]|]; try discriminate; eauto; destruct t as [|w'|ts|k t|t]; try discriminate; try reflexivity.
    - cbn [height]. f_equal. revert ids s E. induction ts as [| t ts IHt]; intros [| i ids] s E; cbn [print_seq fmt_depth_seq map fold_right] in *; try discriminate; [reflexivity |].
      destruct (to_string tab n i t) as [a |] eqn:E1; [| discriminate]. destruct (print_seq (to_string tab n) ids ts) as [b |] eqn:E2; [| discriminate]. now rewrite (IH _ _ _ E1), (IHt _ _ E2).
    - cbn [height]. f_equal. destruct (nth_error ids k); [eauto | discriminate].
    - cbn [height]. f_equal. eauto.
  Qed.

  Lemma depth_seq_calls n ids : (forall id st, depth tab n id st <= calls tab n id st) -> forall st, depth_seq (take tab n) (depth tab n) ids st <= calls_seq (take tab n) (calls tab n) ids st.
  Proof.
    intros H. induction ids as [| id ids IH]; intros st; cbn [depth_seq calls_seq]; [lia |]. pose proof (H id st). destruct (take tab n id st) as [[t | e | |] st1]; try lia. pose proof (IH st1). lia.
  Qed.
  Lemma depth_calls fuel : forall id st, depth tab fuel id st <= calls tab fuel id st.
  Proof.
    induction fuel as [| n IH]; intros id st; cbn [depth calls]; [lia |]. destruct (def_of tab id) as [[|s c|nm p ids|p ids fs nl al c|[j|]|f]|]; try lia.
    - pose proof (depth_seq_calls n ids IH st). lia.
    - destruct (iw_peek st) as [q st1]. destruct (match q with Some c0 => pick_arm c0 fs | None => None end) as [k |].
      + destruct (nth_error ids k); [| lia]. pose proof (IH n0 st1). lia.
      + destruct nl as [k |]; [| lia]. destruct (nth_error ids k); [| lia]. pose proof (IH n0 st1). lia.
    - pose proof (IH j st). lia.
    - pose proof (IH f st). lia.
  Qed.

  (** More fuel does not change it. *)
  Lemma depth_S_mono fuel : forall id st, not_out (fst (take tab fuel id st)) -> depth tab (S fuel) id st = depth tab fuel id st.
  Proof.
    induction fuel as [| n IH]; intros id st Hn; [exfalso; apply Hn; reflexivity |]. assert (G : forall m, m = S n -> depth tab (S m) id st = depth tab (S n) id st); [| now apply G]. intros m Em. cbn [depth]. cbn [take] in Hn.
    destruct (def_of tab id) as [[|s c|nm p ids|p ids fs nl al c|[j|]|f]|]; try reflexivity.
    - f_equal. assert (Hq : not_out (fst (take_seq (take tab n) ids st))) by (destruct (take_seq (take tab n) ids st) as [[x|e| |] st2]; cbn in *; try discriminate; intros _; now apply Hn). clear Hn.
      revert st Hq. induction ids as [| i ids IHi]; intros st Hq; [reflexivity |]. cbn [depth_seq take_seq] in *.
      assert (Hi : not_out (fst (take tab n i st))) by (destruct (take tab n i st) as [[x|e| |] st2]; cbn in *; try discriminate; intros _; now apply Hq).
      rewrite <- (IH i st Hi), <- Em. replace (take tab m i st) with (take tab n i st) by (rewrite Em; symmetry; exact (take_S_mono tab n i st Hi)). destruct (take tab n i st) as [[x|e| |] st2]; try reflexivity. f_equal. apply IHi.
      destruct (take_seq (take tab n) ids st2) as [[y|e| |] st3]; cbn in *; try discriminate. intros _; now apply Hq.
    - destruct (iw_peek st) as [q st1]. f_equal.
      assert (B : forall k, not_out (fst (take_branch (take tab n) ids k st1)) -> match nth_error ids k with Some j => depth tab m j st1 | None => 0 end = match nth_error ids k with Some j => depth tab n j st1 | None => 0 end).
      { intros k. unfold take_branch. destruct (nth_error ids k) as [j |]; [| reflexivity]. intros Hk. rewrite Em. apply IH. destruct (take tab n j st1) as [[x|e| |] st2]; cbn in *; try discriminate. intros _; now apply Hk. }
      destruct (match q with Some c0 => pick_arm c0 fs | None => None end) as [k |]; [auto |]. destruct nl as [k |]; [auto | reflexivity].
    - rewrite Em. apply IH. exact Hn.
    - f_equal. rewrite Em. apply IH. destruct (take tab n f st) as [[x|e| |] st2]; cbn in *; try discriminate. intros _; now apply Hn.
  Qed.
  Lemma depth_mono fuel fuel' id st : fuel <= fuel' -> not_out (fst (take tab fuel id st)) -> depth tab fuel' id st = depth tab fuel id st.
  Proof.
    induction 1 as [| m Hle IH]; intros Hn; [reflexivity |]. specialize (IH Hn). rewrite depth_S_mono; [exact IH |]. now rewrite (take_mono tab fuel m id st Hle Hn).
  Qed.

  (** A value of small height prints a short text. *)
  Definition wide (B : nat) (id : nat) : Prop :=
    match def_of tab id with Some (DLit s _) => length s <= B | Some (DCat _ _ ids) => length ids <= B | _ => True end.
  Lemma wide_bound : exists B, 1 <= B /\ forall id, wide B id.
  Proof.
    destruct (all_bound wide (seq 0 (length tab))) as [B HB].
    - intros n n' x Hle. unfold wide. destruct (def_of tab x) as [[]|]; auto; lia.
    - intros x _. unfold wide. destruct (def_of tab x) as [[]|]; try (exists 0; exact Logic.I); eauto.
    - exists (S B). split; [lia |]. intros id. destruct (Nat.lt_ge_cases id (length tab)) as [H | H].
      + assert (K : wide B id) by (apply HB, in_seq; lia). revert K. unfold wide. destruct (def_of tab id) as [[]|]; auto.
      + unfold wide, def_of. rewrite (proj2 (nth_error_None _ _) H). exact Logic.I.
  Qed.
  Lemma yield_short B : 1 <= B -> (forall id, wide B id) ->
    (forall id t, derives tab id t -> length (yield t) <= B ^ height t) /\
    (forall ids ts, derives_seq tab ids ts -> length (flat_map yield ts) <= length ids * B ^ fold_right Nat.max 0 (map height ts)).
  Proof.
    intros HB Hw. apply derives_mutind; cbn [yield height flat_map map fold_right length].
    - intros. lia.
    - intros id s c Hd. pose proof (Hw id) as K. unfold wide in K. rewrite Hd in K. cbn. lia.
    - intros id n p ids ts Hd _ IH. pose proof (Hw id) as K. unfold wide in K. rewrite Hd in K. cbn [Nat.add]. rewrite Nat.pow_succ_r'. nia.
    - intros id p ids f n a c k j t _ _ _ IH. cbn [Nat.add]. rewrite Nat.pow_succ_r'. nia.
    - auto.
    - intros id f t _ _ IH. cbn [Nat.add]. rewrite Nat.pow_succ_r'. nia.
    - lia.
    - intros id ids t ts _ H1 _ H2. rewrite app_length.
      pose proof (Nat.pow_le_mono_r B (height t) (Nat.max (height t) (fold_right Nat.max 0 (map height ts)))).
      pose proof (Nat.pow_le_mono_r B (fold_right Nat.max 0 (map height ts)) (Nat.max (height t) (fold_right Nat.max 0 (map height ts)))). nia.
  Qed.
End Depth.
