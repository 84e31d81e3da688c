(** * MistakeFacts: errors of generated parsers, from the table alone. *)
From Coq Require Import String.
From Verif Require Import SpecMistake ViableFacts PropGen.
From Coq Require Import List Lia.
Open Scope list_scope.

(** A value of a type, searched for. *)
Fixpoint some_value (tab : table) (fuel : nat) (id : nat) : option tree :=
  match fuel with
  | O => None
  | S n =>
    match def_of tab id with
    | Some DEps => Some NEps
    | Some (DLit s _) => Some (NLit s)
    | Some (DCat _ _ ids) =>
      option_map NCat ((fix go l := match l with [] => Some [] | i :: l' => match some_value tab n i, go l' with Some t, Some ts => Some (t :: ts) | _, _ => None end end) ids)
    | Some (DAlt _ ids _ _ _ _) =>
      (fix go k l := match l with [] => None | i :: l' => match some_value tab n i with Some t => Some (NAlt k t) | None => go (S k) l' end end) 0 ids
    | Some (DFix (Some j)) => some_value tab n j
    | Some (DBox f) => option_map NBox (some_value tab n f)
    | _ => None
    end
  end.
Lemma some_value_ok tab : forall fuel id t, some_value tab fuel id = Some t -> derives tab id t.
Proof.
  induction fuel as [| n IH]; intros id t E; [discriminate |]. cbn [some_value] in E. destruct (def_of tab id) as [[| s c | nm p ids | p ids f nl a c | [j |] | f] |] eqn:Ed; try discriminate.
  - injection E as <-. now apply derives_eps.
  - injection E as <-. eapply derives_lit; eauto.
  - set (go := fix go l := match l with [] => Some [] | i :: l' => match some_value tab n i, go l' with Some t, Some ts => Some (t :: ts) | _, _ => None end end) in E.
    destruct (go ids) as [ts |] eqn:Eg; [| discriminate]. injection E as <-. eapply derives_cat; [exact Ed |]. clear Ed. revert ts Eg. induction ids as [| i ids IHi]; cbn; intros ts Eg; [injection Eg as <-; constructor |].
    destruct (some_value tab n i) as [t |] eqn:Et; [| discriminate]. destruct (go ids) as [ts' |]; [| discriminate]. injection Eg as <-. constructor; auto.
  - assert (K : forall l k, (fix go k l := match l with [] => None | i :: l' => match some_value tab n i with Some t => Some (NAlt k t) | None => go (S k) l' end end) k l = Some t -> exists i j t', t = NAlt (k + i) t' /\ nth_error l i = Some j /\ derives tab j t').
    { induction l as [| i l IHl]; intros k H; [discriminate |]. destruct (some_value tab n i) as [t' |] eqn:Et; [injection H as <-; exists 0, i, t'; rewrite Nat.add_0_r; auto |]. apply IHl in H as (x & j & t' & -> & H1 & H2). exists (S x), j, t'. rewrite <- plus_n_Sm. auto. }
    apply K in E as (i & j & t' & -> & H1 & H2). eapply derives_alt; eauto.
  - eapply derives_fix; eauto.
  - destruct (some_value tab n f) as [t' |] eqn:Et; [| discriminate]. injection E as <-. eapply derives_box; eauto.
Qed.
Definition all_valued (tab : table) (fuel : nat) : bool := forallb (fun id => match some_value tab fuel id with Some _ => true | None => false end) (seq 0 (length tab)).
Lemma all_valued_ok tab fuel : all_valued tab fuel = true -> forall id, id < length tab -> exists t, derives tab id t.
Proof.
  unfold all_valued. rewrite forallb_forall. intros H id Hid. specialize (H id ltac:(apply in_seq; lia)). destruct (some_value tab fuel id) as [t |] eqn:E; [| discriminate]. exists t. eapply some_value_ok; eauto.
Qed.

(** C82 for a table all of whose types have values, whatever its language is. *)
Theorem table_errors : forall cs e r tab root s x (W : lang), compiles cs e r tab root -> (forall id, id < length tab -> exists t, derives tab id t) ->
  (forall w, (exists t, parses tab root w (Ok t)) <-> W w) -> parses tab root s (Err x) ->
  exists u rest, wrong_after W s u rest /\ perr_pos x = spec_pos u (hd_error rest) /\ match x with PTake y => says W u rest y | InputContinues _ => rest <> [] /\ W u end.
Proof.
  intros cs e r tab root s x W H Hinh HW Hx. pose proof Hx as Hx0.
  destruct (compiles_table _ _ _ _ _ H) as (m & _ & Hroot & Hgood & _ & _ & Hl). assert (Hf : forall id, id < length tab -> flat_ok tab (tau m) id) by (intros id Hid; apply Hgood; exact Hid).
  assert (T : forall w, words tab root w <-> W w). { intros w. rewrite <- HW. split; intros [t Ht]; exists t; now apply (parse_ok_iff _ _ _ _ _ H). }
  assert (Hno : ~ W s). { intros K. apply HW in K as [t K]. pose proof (parses_fun _ _ _ _ _ K Hx0). discriminate. }
  destruct Hx as [_ [fuel Hx]]. pose proof (Hx fuel (le_n _)) as E. rewrite parse_take in E.
  pose proof (take_sound tab fuel root [] s (iw_new s) (at_cursor_new s)) as Hsd.
  destruct (take tab fuel root (iw_new s)) as [[v|y| |] st] eqn:Et; try discriminate; destruct Hsd as (u & w & Es & Hc & Ho & Hv); exists u, w.
  - destruct (Hv v eq_refl) as [Hd Hy]. destruct Hc as [Hc1 Hc2]. destruct (remaining st) as [|c rest] eqn:Er; [discriminate|]. injection E as <-.
    assert (Wu : W u) by (apply T; exists v; auto). split; [| split; [exact Hc2 | split; [rewrite <- Hc1; discriminate | exact Wu]]].
    split; [exact Es |]. split; [exact Hno |]. split; [exists []; now rewrite app_nil_r |]. intros d r' Ew z Hw. assert (Hz : hd_error (d :: z) = hd_error w) by now rewrite Ew. apply T in Hw as (t & Ht & Hyt).
    eapply (take_earliest tab _ Hf fuel root s u w _ st Es Et); eauto; [discriminate|split; [congruence|exact Hc2]|].
    intros t' _. rewrite <- Hc1. discriminate.
  - injection E as <-. assert (Hs : says W u w y).
    { destruct (take_honest tab _ Hf Hl Hinh fuel root [] s (iw_new s) y st Hroot (at_cursor_new s) Et) as (p & rest & Ep & Hr & Hsay).
      rewrite (proj1 Hc) in Hr. subst rest. assert (p = u) as -> by (apply (app_inv_tail w); congruence).
      rewrite <- (app_nil_l u). eapply (says_embed _ _ [] []); [| exact Hsay]. intros w' Hw. rewrite app_nil_r. now apply T. }
    split; [| split; [exact Ho | exact Hs]]. split; [exact Es |]. split; [exact Hno |]. split; [eapply says_viable; eauto |].
    intros d r' Ew z Hw. assert (Hz : hd_error (d :: z) = hd_error w) by now rewrite Ew. apply T in Hw as (t & Ht & Hyt). eapply (take_earliest tab _ Hf fuel root s u w _ st Es Et); eauto; discriminate.
Qed.
Lemma wrong_once W s u rest u' rest' : wrong_after W s u rest -> wrong_after W s u' rest' -> u = u' /\ rest = rest'.
Proof.
  assert (K : forall u rest u' rest', wrong_after W s u rest -> wrong_after W s u' rest' -> length u <= length u' -> u = u').
  { clear. intros u rest u' rest' (E & _ & _ & N) (E' & _ & (z & V) & _) Hl. destruct (app_eq_app u rest u' rest') as (x & [[-> ->] | [-> ->]]); [congruence | |].
    - rewrite app_length in Hl. destruct x; [now rewrite app_nil_r | cbn in Hl; lia].
    - destruct x as [| c x]; [now rewrite app_nil_r |]. exfalso. apply (N c (x ++ rest') eq_refl (x ++ z)). now rewrite <- app_assoc in V. }
  intros H H'. assert (u = u') as <- by (destruct (Nat.le_ge_cases (length u) (length u')); [eapply K; eauto | symmetry; eapply K; eauto]). split; [reflexivity |]. destruct H as [-> _], H' as [E _]. now apply app_inv_head in E.
Qed.

(** Without values for all types the place can be late, never early. *)
Theorem table_late : forall cs e r tab root s x (W : lang), compiles cs e r tab root ->
  (forall w, (exists t, parses tab root w (Ok t)) <-> W w) -> parses tab root s (Err x) ->
  exists u rest, s = u ++ rest /\ perr_pos x = spec_pos u (hd_error rest) /\ (forall c r, rest = c :: r -> forall z, ~ W (u ++ c :: z)) /\ forall u0 rest0, wrong_after W s u0 rest0 -> length u0 <= length u.
Proof.
  intros cs e r tab root s x W H HW Hx.
  destruct (compiles_table _ _ _ _ _ H) as (m & _ & _ & Hgood & _ & _ & _). assert (Hf : forall id, id < length tab -> flat_ok tab (tau m) id) by (intros id Hid; apply Hgood; exact Hid).
  assert (T : forall w, words tab root w <-> W w). { intros w. rewrite <- HW. split; intros [t Ht]; exists t; now apply (parse_ok_iff _ _ _ _ _ H). }
  assert (Q : exists u rest, s = u ++ rest /\ perr_pos x = spec_pos u (hd_error rest) /\ forall z, hd_error z = hd_error rest -> ~ W (u ++ z)).
  { destruct Hx as [_ [fuel Hx]]. pose proof (Hx fuel (le_n _)) as E. rewrite parse_take in E.
    pose proof (take_sound tab fuel root [] s (iw_new s) (at_cursor_new s)) as Hsd.
    destruct (take tab fuel root (iw_new s)) as [[v|y| |] st] eqn:Et; try discriminate; destruct Hsd as (u & w & Es & Hc & Ho & Hv); exists u, w; (split; [exact Es |]).
    - destruct Hc as [Hc1 Hc2]. destruct (remaining st) as [|c rest] eqn:Er; [discriminate|]. injection E as <-. split; [exact Hc2 |]. intros z Hz Hw. apply T in Hw as (t & Ht & Hyt).
      eapply (take_earliest tab _ Hf fuel root s u w _ st Es Et); eauto; [discriminate|split; [congruence|exact Hc2]|]. intros t' _. rewrite <- Hc1. discriminate.
    - injection E as <-. split; [exact Ho |]. intros z Hz Hw. apply T in Hw as (t & Ht & Hyt). eapply (take_earliest tab _ Hf fuel root s u w _ st Es Et); eauto; discriminate. }
  destruct Q as (u & rest & Es & Hp & Hn). exists u, rest. split; [exact Es |]. split; [exact Hp |]. split; [intros c r' -> z; now apply Hn |].
  intros u0 rest0 (E0 & _ & (z & Hz) & _). rewrite Es in E0. destruct (Nat.le_gt_cases (length u0) (length u)) as [Hl | Hl]; [exact Hl | exfalso].
  destruct (app_eq_app u rest u0 rest0 E0) as (y & [[-> ->] | [-> ->]]); [rewrite app_length in Hl; lia |]. destruct y as [| c y]; [rewrite app_nil_r in Hl; lia |].
  apply (Hn ((c :: y) ++ z) eq_refl). now rewrite app_assoc.
Qed.
