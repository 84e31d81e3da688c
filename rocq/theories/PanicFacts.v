(** * PanicFacts: a literal with a character beyond ASCII before its last one makes a parser panic. *)
From Verif Require Export TakeFacts.
From Verif Require Import EmitFacts.
From Coq Require Import List Lia.

Lemma utf8_wide c : (128 <= c)%N -> 2 <= utf8_len c.
Proof. intros H. unfold utf8_len. destruct (N.ltb_spec c 128); [lia |]. repeat match goal with |- context [if ?b then _ else _] => destruct b end; lia. Qed.
Lemma utf8_thin c : (c < 128)%N -> utf8_len c = 1.
Proof. intros H. unfold utf8_len. destruct (N.ltb_spec c 128); [reflexivity | lia]. Qed.

Lemma byte_prefix_cons c s n : byte_prefix (c :: s) (S n) = if Nat.leb (utf8_len c) (S n) then option_map (cons c) (byte_prefix s (S n - utf8_len c)) else None.
Proof. reflexivity. Qed.

(** Slicing after as many bytes as characters fails somewhere exactly if some
    character but the last is not ASCII. *)
Lemma slice_fails w : ~ ascii (removelast w) -> exists v d w', w = v ++ d :: w' /\ v <> [] /\ byte_prefix w (length v) = None.
Proof.
  induction w as [| c w IH]; intros H; [elim H; constructor |]. destruct w as [| c' w]; [elim H; constructor |].
  destruct (N.lt_ge_cases c 128) as [L | L].
  - destruct IH as (v & d & w' & E & _ & B).
    { intros K. apply H. change (removelast (c :: c' :: w)) with (c :: removelast (c' :: w)). constructor; assumption. }
    exists (c :: v), d, w'. split; [now rewrite E |]. split; [discriminate |]. cbn [length]. rewrite byte_prefix_cons, utf8_thin by exact L. replace (S (length v) - 1) with (length v) by lia. now rewrite B.
  - exists [c], c', w. split; [reflexivity |]. split; [discriminate |]. cbn [length]. rewrite byte_prefix_cons. pose proof (utf8_wide c L). destruct (Nat.leb_spec (utf8_len c) 1); [lia | reflexivity].
Qed.

Section Panics.
  Variable tab : table.
  Variable tau : nat -> ty.
  Hypothesis Hok : forall id, id < length tab -> flat_ok tab tau id.
  Hypothesis Hleft : left_wf tab.
  Hypothesis Hinh : forall id, id < length tab -> exists t, derives tab id t.

  Definition panics (id : nat) (x : rstr) : Prop := forall u st, at_cursor u x st -> exists fuel, forall fuel', fuel <= fuel' -> fst (take tab fuel' id st) = Panic.
  (** A text that panics, starting like a word. *)
  Definition can_panic (id : nat) : Prop := exists c x, In c (first_set (tau id)) /\ panics id (c :: x).

  Lemma lit_can_panic id w cv : def_of tab id = Some (DLit w cv) -> ~ ascii (removelast w) -> can_panic id.
  Proof.
    intros Hd Ha. destruct (slice_fails w Ha) as (v & d & w' & E & Hv & B). pose proof (def_ok tab tau Hok _ _ Hd) as F. unfold flat_ok in F. rewrite Hd in F.
    destruct v as [| c0 v]; [now elim Hv |]. set (c := if N.eqb d 97 then 98%N else 97%N). assert (Hc : d <> c) by (unfold c; destruct (N.eqb_spec d 97); [subst; discriminate | assumption]).
    exists c0, (v ++ [c]). split; [rewrite F, E; now left |]. intros u st Hcur. exists 1. intros [| n] Hf; [lia |]. cbn [take]. rewrite Hd.
    destruct (consume_loop_spec w w 0 u _ st Hcur) as (r' & Hr & Hx). cbv zeta in Hr, Hx.
    assert (P : forall q a, lcp (q ++ d :: a) (q ++ [c]) = q).
    { induction q as [| z q IH]; intros a; cbn [lcp app]; [destruct (N.eqb_spec d c); congruence |]. rewrite N.eqb_refl. now rewrite IH. }
    assert (L : lcp w (c0 :: v ++ [c]) = c0 :: v) by (rewrite E; apply (P (c0 :: v) w')). rewrite L in Hr, Hx.
    change (c0 :: v ++ [c]) with ((c0 :: v) ++ [c]) in Hr. apply app_inv_head in Hr. subst r'. unfold consume_str. destruct (consume_loop w w 0 st) as [x st']. destruct Hx as [_ Hx].
    destruct (Nat.eqb_spec (length (c0 :: v)) (length w)) as [K | _]; [rewrite E, app_length in K; cbn in K; lia |]. cbn [Nat.add] in Hx. rewrite B in Hx. now rewrite Hx.
  Qed.

  Lemma follow_head id w r r' : hd_error r = hd_error r' -> follow tau id w r -> follow tau id w r'.
  Proof. intros H F c Hc. apply F. congruence. Qed.
  Lemma seq_panics j c0 x tj z tr r : yield tj = c0 :: z -> panics j (c0 :: x) -> forall l ts, derives_seq tab l ts -> seq_follows tau (l ++ j :: r) (ts ++ tj :: tr) [] ->
    forall u st, at_cursor u (flat_map yield ts ++ c0 :: x) st -> exists fuel, forall fuel', fuel <= fuel' -> fst (take_seq (take tab fuel') (l ++ j :: r) st) = Panic.
  Proof.
    intros Hj Hp l ts D. induction D as [| id ids t ts Ht Hts IH]; intros Hf u st Hc.
    - cbn [app flat_map] in *. destruct (Hp u st Hc) as [fuel Hfuel]. exists fuel. intros f Hle. specialize (Hfuel f Hle). cbn [take_seq]. destruct (take tab f j st) as [y st']. cbn in Hfuel. now subst y.
    - cbn [app flat_map] in *. destruct Hf as [Hf1 Hf2]. rewrite <- app_assoc in Hc.
      destruct (proj1 (take_complete tab tau Hok) id t Ht u _ st Hc) as [f1 H1].
      { eapply follow_head; [| exact Hf1]. rewrite app_nil_r, flat_map_app. cbn [flat_map]. rewrite Hj. destruct (flat_map yield ts); reflexivity. }
      destruct (H1 f1 (le_n _)) as (st1 & E1 & C1). destruct (IH Hf2 _ _ C1) as [f2 H2]. exists (Nat.max f1 f2). intros f Hle. specialize (H2 f). cbn [take_seq].
      rewrite (take_mono tab f1 f); [| lia | rewrite E1; discriminate]. rewrite E1. destruct (take_seq (take tab f) (ids ++ j :: r) st1) as [y st2]. cbn in H2. rewrite H2 by lia. reflexivity.
  Qed.

  Lemma panic_up id j : id < length tab -> In j (mentions tab id) -> can_panic j -> can_panic id.
  Proof.
    intros Hid Hj (c0 & x & Hc0 & Hp). pose proof (Hok id Hid) as F. unfold flat_ok in F. unfold mentions in Hj.
    destruct (def_of tab id) as [[|s cv|nm p ids|p ids fs nl al cv|[k|]|f]|] eqn:Ed; try contradiction.
    - destruct F as [_ Hlt]. apply in_split in Hj as (l & r & ->). apply Forall_app in Hlt as [Hl Hlt]. apply Forall_cons_iff in Hlt as [Hj Hr].
      destruct (seq_inhabited tab Hinh l Hl) as [ts Hts]. destruct (seq_inhabited tab Hinh r Hr) as [tr Htr].
      destruct (first_real tab tau Hok Hleft Hinh j Hj c0 Hc0) as (tj & z & Htj & Hz).
      assert (D : derives_seq tab (l ++ j :: r) (ts ++ tj :: tr)) by (clear - Hts Htj Htr; induction Hts; cbn; constructor; auto).
      destruct (cat_follows tab tau Hok _ _ _ _ _ [] Ed D) as [Hf _]; [intros d Hd'; discriminate |].
      pose proof (proj1 (derives_starts tab tau Hok) _ _ (derives_cat tab id nm p _ _ Ed D)) as Hst. cbn [yield] in Hst. rewrite flat_map_app in Hst. cbn [flat_map] in Hst. rewrite Hz in Hst.
      assert (K : exists c1 y, flat_map yield ts ++ c0 :: x = c1 :: y /\ In c1 (first_set (tau id))).
      { destruct (flat_map yield ts) as [| d w]; cbn in Hst |- *; eauto. }
      destruct K as (c1 & y & K1 & K2). exists c1, y. split; [exact K2 |]. intros u st Hc. rewrite <- K1 in Hc.
      destruct (seq_panics j c0 x tj z tr r Hz Hp l ts Hts Hf u st Hc) as [fuel Hfuel]. exists (S fuel). intros [| n] Hle; [lia |]. cbn [take]. rewrite Ed.
      specialize (Hfuel n). destruct (take_seq (take tab n) (l ++ j :: r) st) as [y' st2]. cbn in Hfuel. rewrite Hfuel by lia. reflexivity.
    - destruct F as (F & Hlt & -> & -> & _). destruct ids as [| a xs]; [contradiction |]. pose proof (alts_pair _ _ _ _ F) as Hpair. destruct (alts_sets _ _ _ _ F) as (_ & S2 & _).
      exists c0, x. split; [apply S2; eauto |]. intros u st Hc. destruct (peek_at _ _ _ Hc) as [P1 P2]. destruct (Hp u _ P2) as [fuel Hfuel]. exists (S fuel). intros [| n] Hle; [lia |]. cbn [take]. rewrite Ed.
      destruct (iw_peek st) as [q st1]. cbn in P1, P2, Hfuel. subst q. apply In_nth_error in Hj as [k Hk].
      pose proof (pick_arm_spec tau c0 (a :: xs)) as Hpk. specialize (Hpk (fun k k' j j' Hk Hk' Hne => proj2 (Hpair k k' j j' Hk Hk' Hne)) 0).
      destruct (pick_arm c0 _) as [k0|].
      + destruct Hpk as (k1 & j0 & -> & Hk1 & Hin). cbn [Nat.add]. destruct (Nat.eq_dec k1 k) as [->|Hne]; [| exfalso; apply (proj2 (Hpair k1 k j0 j Hk1 Hk Hne) c0); auto].
        unfold take_branch. rewrite Hk. specialize (Hfuel n). destruct (take tab n j st1) as [y st2]. cbn in Hfuel. rewrite Hfuel by lia. reflexivity.
      + exfalso. apply (Hpk j); [eapply nth_error_In; eauto | exact Hc0].
    - destruct F as [F _]. destruct Hj as [-> | []]. exists c0, x. rewrite F. split; [exact Hc0 |]. intros u st Hc. destruct (Hp u st Hc) as [fuel Hfuel]. exists (S fuel). intros [| n] Hle; [lia |]. cbn [take]. rewrite Ed. apply Hfuel. lia.
    - destruct F as [F _]. destruct Hj as [-> | []]. exists c0, x. rewrite F. split; [exact Hc0 |]. intros u st Hc. destruct (Hp u st Hc) as [fuel Hfuel]. exists (S fuel). intros [| n] Hle; [lia |]. cbn [take]. rewrite Ed.
      specialize (Hfuel n). destruct (take tab n j st) as [y st2]. cbn in Hfuel. rewrite Hfuel by lia. reflexivity.
  Qed.
End Panics.

(** Every literal of the expression is in the table. *)
Lemma repr_lits tab e : forall ctx id, repr tab ctx id e -> forall w, In w (t_lits e) -> exists i cv, def_of tab i = Some (DLit w cv).
Proof.
  assert (Many : forall ctx l ids, Forall2 (repr tab ctx) ids l -> Forall (fun e => forall ctx id, repr tab ctx id e -> forall w, In w (t_lits e) -> exists i cv, def_of tab i = Some (DLit w cv)) l ->
    forall w, In w (flat_map t_lits l) -> exists i cv, def_of tab i = Some (DLit w cv)).
  { intros ctx l ids F. induction F as [| x y ids l Hx _ IH]; intros Hl w Hw; [destruct Hw |]. apply Forall_cons_iff in Hl as [Hy Hl]. cbn in Hw. apply in_app_or in Hw as [Hw | Hw]; eauto. }
  induction e using texpr_ind'; intros ctx id Hr w Hw; inversion Hr; subst; cbn [t_lits] in Hw; try (destruct Hw; fail); eauto.
  destruct Hw as [<- | []]. eauto.
Qed.
