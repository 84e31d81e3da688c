(** * ArithErr: errors of the hand-written arithmetic parser. *)
From Coq Require Import String ZArith.
From Verif Require Export SpecArithError ArithSound.
From Coq Require Import List Lia.
Import ListNotations.
Open Scope list_scope.
Local Opaque Z.pow.

(** ** An automaton with a counter *)
Inductive mode := WantTerm | WantNumber | InNumber | AfterTerm.
Definition st2 := (mode * nat)%type.
Definition is_dig (c : char) : bool := (48 <=? c)%N && (c <=? 57)%N.
Definition is_oper (c : char) : bool := N.eqb c (chr "+") || N.eqb c (chr "-") || N.eqb c (chr "*") || N.eqb c (chr "/").
Definition after_step (d : nat) (c : char) : option st2 :=
  if N.eqb c 32%N then Some (AfterTerm, d)
  else if is_oper c then Some (WantTerm, d)
  else if N.eqb c (chr ")") then match d with O => None | S d' => Some (AfterTerm, d') end
  else None.
Definition step (q : st2) (c : char) : option st2 :=
  let '(m, d) := q in
  match m with
  | WantTerm => if N.eqb c 32%N then Some q else if N.eqb c (chr "-") then Some (WantNumber, d) else if is_dig c then Some (InNumber, d)
                else if N.eqb c (chr "(") then Some (WantTerm, S d) else None
  | WantNumber => if N.eqb c 32%N then Some q else if is_dig c then Some (InNumber, d) else None
  | InNumber => if is_dig c then Some q else after_step d c
  | AfterTerm => after_step d c
  end.
Fixpoint run (q : st2) (w : rstr) : option st2 :=
  match w with [] => Some q | c :: w' => match step q c with Some q' => run q' w' | None => None end end.
Definition after (m : mode) : Prop := m = InNumber \/ m = AfterTerm.
Lemma run_app q u v : run q (u ++ v) = match run q u with Some q' => run q' v | None => None end.
Proof. revert q. induction u as [| c u IH]; intros q; [reflexivity |]. cbn [app run]. destruct (step q c); [apply IH | reflexivity]. Qed.
Lemma is_dig_iff c : is_dig c = true <-> is_digit c.
Proof. unfold is_dig, is_digit. rewrite andb_true_iff, !N.leb_le. tauto. Qed.
Lemma is_dig_not c : is_dig c = false <-> ~ is_digit c.
Proof. rewrite <- is_dig_iff. destruct (is_dig c); intuition congruence. Qed.
Lemma run_blank m d s : blank s -> exists m', run (m, d) s = Some (m', d) /\ ((m' = m /\ (after m -> m' = AfterTerm \/ s = [])) \/ (after m /\ m' = AfterTerm)).
Proof.
  intros H. revert m. induction H as [| c s <- H IH]; intros m; [exists m; split; [reflexivity | tauto] |]. cbn [run]. destruct m; cbn [step].
  - rewrite N.eqb_refl. destruct (IH WantTerm) as (m' & E & Hm). exists m'. split; [exact E |]. unfold after in *. intuition (try discriminate).
  - rewrite N.eqb_refl. destruct (IH WantNumber) as (m' & E & Hm). exists m'. split; [exact E |]. unfold after in *. intuition (try discriminate).
  - change (is_dig 32%N) with false. change (after_step d 32%N) with (Some (AfterTerm, d)). cbn iota. destruct (IH AfterTerm) as (m' & E & Hm). exists m'. split; [exact E |]. unfold after in *. intuition (try discriminate).
  - change (after_step d 32%N) with (Some (AfterTerm, d)). cbn iota. destruct (IH AfterTerm) as (m' & E & Hm). exists m'. split; [exact E |]. unfold after in *. intuition (try discriminate).
Qed.
Lemma run_blank_want m d s : blank s -> ~ after m -> run (m, d) s = Some (m, d).
Proof. intros H Hm. destruct (run_blank m d s H) as (m' & E & [[-> _] | [X _]]); [exact E | tauto]. Qed.
Lemma run_blank_after m d s : blank s -> after m -> exists m', run (m, d) s = Some (m', d) /\ after m'.
Proof. intros H Hm. destruct (run_blank m d s H) as (m' & E & [[-> _] | [_ ->]]); eexists; (split; [exact E |]); [exact Hm | now right]. Qed.
Lemma run_digits d w : Forall is_digit w -> run (InNumber, d) w = Some (InNumber, d).
Proof. induction 1 as [| c w Hc H IH]; [reflexivity |]. cbn [run step]. apply is_dig_iff in Hc. rewrite Hc. exact IH. Qed.
Lemma digit_facts c : is_digit c -> N.eqb c 32 = false /\ N.eqb c (chr "-") = false /\ N.eqb c (chr "(") = false /\ N.eqb c (chr ")") = false /\ is_oper c = false.
Proof.
  unfold is_digit. intros H. unfold is_oper. change (chr "-") with 45%N. change (chr "(") with 40%N. change (chr ")") with 41%N. change (chr "+") with 43%N. change (chr "*") with 42%N. change (chr "/") with 47%N.
  repeat split; rewrite ?orb_false_iff, ?N.eqb_neq; repeat split; lia.
Qed.
Lemma run_number C m d w v : Number C w v -> m = WantTerm \/ m = WantNumber -> run (m, d) w = Some (InNumber, d).
Proof.
  intros [w' Hne Hd] Hm. destruct w' as [| c w']; [congruence |]. inversion Hd as [| ? ? Hc Hd']; subst. destruct (digit_facts c Hc) as (E1 & E2 & _). apply is_dig_iff in Hc.
  cbn [run]. destruct Hm as [-> | ->]; cbn [step]; rewrite E1, ?E2, Hc; now apply run_digits.
Qed.
Lemma run_op m d c : after m -> is_oper c = true -> step (m, d) c = Some (WantTerm, d).
Proof.
  intros Hm Hc. assert (E : is_dig c = false /\ N.eqb c 32 = false).
  { split; [apply is_dig_not; intros X; apply digit_facts in X as (_ & _ & _ & _ & X); congruence |]. apply N.eqb_neq. intros ->. discriminate Hc. }
  destruct E as [E1 E2]. assert (A : after_step d c = Some (WantTerm, d)) by (unfold after_step; now rewrite E2, Hc). destruct Hm as [-> | ->]; cbn [step]; rewrite ?E1; exact A.
Qed.
Lemma run_sentence C : (forall w v, Term C w v -> forall d, exists m, run (WantTerm, d) w = Some (m, d) /\ after m) /\
  (forall w v, Prod C w v -> forall d, exists m, run (WantTerm, d) w = Some (m, d) /\ after m) /\
  (forall w v, Expr C w v -> forall d, exists m, run (WantTerm, d) w = Some (m, d) /\ after m).
Proof.
  assert (Op : forall w w' s c d, is_oper c = true -> blank s -> (exists m, run (WantTerm, d) w = Some (m, d) /\ after m) -> (exists m, run (WantTerm, d) w' = Some (m, d) /\ after m) ->
    exists m, run (WantTerm, d) (w ++ [c] ++ s ++ w') = Some (m, d) /\ after m).
  { intros w w' s c d Hc Hs (m & E & Hm) (m' & E' & Hm'). exists m'. split; [| exact Hm']. rewrite run_app, E. cbn [app run]. rewrite (run_op m d c Hm Hc), run_app, run_blank_want; [exact E' | exact Hs |]. intros [X | X]; discriminate X. }
  apply Term_mut.
  - intros w v s Hn Hs d. rewrite run_app, (run_number C _ d w v Hn (or_introl eq_refl)). apply run_blank_after; [exact Hs | now left].
  - intros s w v s' Hs Hn Hs' d. change (lit "-" ++ s ++ w ++ s') with (chr "-" :: s ++ w ++ s'). cbn [run].
    change (step (WantTerm, d) (chr "-")) with (Some (WantNumber, d)). cbn iota. rewrite run_app, run_blank_want; [| exact Hs | intros [X | X]; discriminate X].
    rewrite run_app, (run_number C _ d w v Hn (or_intror eq_refl)). apply run_blank_after; [exact Hs' | now left].
  - intros s w v s' Hs He IH Hs' d. change (lit "(" ++ s ++ w ++ lit ")" ++ s') with (chr "(" :: s ++ w ++ chr ")" :: s'). cbn [run].
    change (step (WantTerm, d) (chr "(")) with (Some (WantTerm, S d)). cbn iota. rewrite run_app, run_blank_want; [| exact Hs | intros [X | X]; discriminate X].
    destruct (IH (S d)) as (m & E & Hm). rewrite run_app, E. cbn [run]. replace (step (m, S d) (chr ")")) with (Some (AfterTerm, d)) by (destruct Hm as [-> | ->]; reflexivity). apply run_blank_after; [exact Hs' | now right].
  - auto.
  - intros w v s w' v' _ IH Hs _ IH' d. apply Op; auto.
  - intros w v s w' v' _ IH Hs _ IH' d. apply Op; auto.
  - auto.
  - intros w v s w' v' _ IH Hs _ IH' d. apply Op; auto.
  - intros w v s w' v' _ IH Hs _ IH' d. apply Op; auto.
Qed.

(** ** What the automaton accepts is an expression *)
Definition settled (r : rstr) : Prop := match r with [] => True | c :: _ => is_oper c = true \/ c = chr ")" end.
Lemma settle d f w : forall m, after m -> run (m, d) w = Some f -> (m = InNumber -> forall c, hd_error w = Some c -> ~ is_digit c) ->
  exists s r m', w = s ++ r /\ blank s /\ after m' /\ run (m', d) r = Some f /\ settled r.
Proof.
  induction w as [| c w IH]; intros m Hm E Hd; [exists [], [], m; repeat split; auto; constructor |].
  assert (E' : match after_step d c with Some q => run q w | None => None end = Some f).
  { destruct Hm as [-> | ->]; cbn [run step] in E; [| exact E]. rewrite (proj2 (is_dig_not c) (Hd eq_refl c eq_refl)) in E. exact E. }
  unfold after_step in E'. destruct (N.eqb_spec c 32) as [-> | Hc].
  - destruct (IH AfterTerm) as (s & r & m' & -> & Hs & Hm' & Hr & Hst); [now right | exact E' | discriminate |]. exists (32%N :: s), r, m'. repeat split; auto. now constructor.
  - exists [], (c :: w), m. split; [reflexivity |]. split; [constructor |]. split; [exact Hm |]. split; [exact E |]. cbn. destruct (is_oper c); [now left |]. destruct (N.eqb_spec c (chr ")")); [now right | discriminate E'].
Qed.
Lemma digits_split d f w : run (InNumber, d) w = Some f -> exists ds r, w = ds ++ r /\ Forall is_digit ds /\ run (InNumber, d) r = Some f /\ (forall c, hd_error r = Some c -> ~ is_digit c).
Proof.
  induction w as [| c w IH]; intros E; [exists [], []; repeat split; auto; discriminate |]. destruct (is_dig c) eqn:Ec.
  - cbn [run step] in E. rewrite Ec in E. destruct (IH E) as (ds & r & -> & H1 & H2 & H3). exists (c :: ds), r. repeat split; auto. constructor; [now apply is_dig_iff | exact H1].
  - exists [], (c :: w). repeat split; auto. intros x [= <-]. now apply is_dig_not.
Qed.
Lemma number_tail d f m c w : m = WantTerm \/ m = WantNumber -> is_digit c -> run (m, d) (c :: w) = Some f ->
  exists ds s r m', w = ds ++ s ++ r /\ Forall is_digit ds /\ blank s /\ after m' /\ run (m', d) r = Some f /\ settled r.
Proof.
  intros Hm Hc E. destruct (digit_facts c Hc) as (E1 & E2 & _). apply is_dig_iff in Hc. assert (E' : run (InNumber, d) w = Some f) by (cbn [run] in E; destruct Hm as [-> | ->]; cbn [step] in E; rewrite E1, ?E2, Hc in E; exact E).
  apply digits_split in E' as (ds & r & -> & H1 & H2 & H3). destruct (settle d f r InNumber (or_introl eq_refl) H2 (fun _ => H3)) as (s & r' & m' & -> & H4 & H5 & H6 & H7). exists ds, s, r', m'. auto 10.
Qed.
Section Accepted.
  Variable C : calculator.
  Definition Acc (x : rstr) : Prop := exists e0 p v, x = e0 ++ p /\ Prod C p v /\
    (e0 = [] \/ exists e ve c s, e0 = e ++ [c] ++ s /\ Expr C e ve /\ (c = chr "+" \/ c = chr "-") /\ blank s).
  Lemma Acc_expr x : Acc x -> exists v, Expr C x v.
  Proof.
    intros (e0 & p & v & -> & Hp & [-> | (e & ve & c & s & -> & He & Hc & Hs)]); [exists v; now apply expr_prod |]. rewrite <- !app_assoc.
    destruct Hc as [-> | ->]; eexists; [apply expr_add | apply expr_sub]; eauto.
  Qed.
  Lemma Acc_term t v : Term C t v -> Acc t.
  Proof. intros H. exists [], t, v. split; [reflexivity |]. split; [now apply prod_term | now left]. Qed.
  Lemma Acc_op x c s t v : Acc x -> is_oper c = true -> blank s -> Term C t v -> Acc (x ++ [c] ++ s ++ t).
  Proof.
    intros Hx Hc Hs Ht. assert (Cc : c = chr "+" \/ c = chr "-" \/ c = chr "*" \/ c = chr "/").
    { unfold is_oper in Hc. rewrite !orb_true_iff, !N.eqb_eq in Hc. tauto. }
    assert (K : c = chr "+" \/ c = chr "-" -> Acc (x ++ [c] ++ s ++ t)).
    { intros Hc'. destruct (Acc_expr x Hx) as [vx Hvx]. exists (x ++ [c] ++ s), t, v. rewrite <- !app_assoc. split; [reflexivity |]. split; [now apply prod_term |]. right. exists x, vx, c, s. auto. }
    destruct Hx as (e0 & p & vp & -> & Hp & H0). destruct Cc as [-> | [-> | [-> | ->]]]; auto.
    - exists e0, (p ++ lit "*" ++ s ++ t). eexists. split; [now rewrite <- !app_assoc |]. split; [eapply prod_mul; eauto | exact H0].
    - exists e0, (p ++ lit "/" ++ s ++ t). eexists. split; [now rewrite <- !app_assoc |]. split; [eapply prod_div; eauto | exact H0].
  Qed.
  Definition term_at (w : rstr) : Prop := forall d mf, run (WantTerm, d) w = Some (mf, 0) -> after mf ->
    exists b t r v m, w = b ++ t ++ r /\ blank b /\ Term C t v /\ after m /\ run (m, d) r = Some (mf, 0) /\ settled r /\ length r < length w.
  Lemma loop_at N (HT : forall w, length w <= N -> term_at w) : forall n x r d m mf, length r <= n -> length r <= N -> Acc x -> after m -> after mf -> run (m, d) r = Some (mf, 0) -> settled r ->
    exists y r' v m', r = y ++ r' /\ Expr C (x ++ y) v /\ after m' /\ run (m', d) r' = Some (mf, 0) /\ (r' = [] \/ hd_error r' = Some (chr ")")) /\ length r' <= length r.
  Proof.
    induction n as [| n IH]; intros x r d m mf Hn HN Hx Hm Hf E Hs.
    { destruct r; [| cbn in Hn; lia]. destruct (Acc_expr x Hx) as [v Hv]. exists [], [], v, m. rewrite (app_nil_r x). repeat split; auto. }
    destruct r as [| c r]. { destruct (Acc_expr x Hx) as [v Hv]. exists [], [], v, m. rewrite (app_nil_r x). repeat split; auto. }
    destruct Hs as [Hc | ->]. 2: { destruct (Acc_expr x Hx) as [v Hv]. eexists [], _, v, m. rewrite (app_nil_r x). repeat split; eauto. }
    cbn [run] in E. rewrite (run_op m d c Hm Hc) in E. cbn in Hn, HN. destruct (HT r ltac:(lia) d mf E Hf) as (b & t & r1 & v & m1 & -> & Hb & Ht & Hm1 & E1 & Hs1 & Hl). rewrite !app_length in Hl, Hn, HN.
    destruct (IH (x ++ [c] ++ b ++ t) r1 d m1 mf) as (y & r' & v' & m' & -> & Hv & Hm' & E' & Hr' & Hl'); auto; [lia | lia | now apply (Acc_op _ _ _ _ v) |].
    exists ([c] ++ b ++ t ++ y), r', v', m'. split; [cbn; now rewrite <- !app_assoc |]. split; [rewrite <- !app_assoc in Hv; exact Hv |]. repeat split; auto. cbn. rewrite !app_length in *. lia.
  Qed.
  Lemma expr_at N (HT : forall w, length w <= N -> term_at w) w d mf : length w <= N -> run (WantTerm, d) w = Some (mf, 0) -> after mf ->
    exists b e r v m, w = b ++ e ++ r /\ blank b /\ Expr C e v /\ after m /\ run (m, d) r = Some (mf, 0) /\ (r = [] \/ hd_error r = Some (chr ")")) /\ length r < length w.
  Proof.
    intros Hl E Hf. destruct (HT w Hl d mf E Hf) as (b & t & r1 & v & m1 & -> & Hb & Ht & Hm1 & E1 & Hs1 & Hl1). rewrite !app_length in *.
    destruct (loop_at N HT (length r1) t r1 d m1 mf) as (y & r' & v' & m' & -> & Hv & Hm' & E' & Hr' & Hl'); auto; [lia | now apply (Acc_term _ v) |].
    exists b, (t ++ y), r', v', m'. split; [now rewrite <- !app_assoc |]. repeat split; auto. rewrite !app_length in *. lia.
  Qed.
  Lemma term_all N : forall w, length w <= N -> term_at w.
  Proof.
    induction N as [| N IH]; intros w Hl d mf E Hf.
    { destruct w; [| cbn in Hl; lia]. cbn in E. injection E as <- _. destruct Hf; discriminate. }
    destruct w as [| c w]. { cbn in E. injection E as <- _. destruct Hf; discriminate. } cbn in Hl.
    pose proof E as E0. cbn [run step] in E0. destruct (N.eqb_spec c 32) as [-> | Hc].
    - destruct (IH w ltac:(lia) d mf E0 Hf) as (b & t & r & v & m & -> & Hb & H). exists (32%N :: b), t, r, v, m. destruct H as (H1 & H2 & H3 & H4 & H5). repeat split; auto; [now constructor | cbn; lia].
    - destruct (N.eqb_spec c (chr "-")) as [-> | Hc1].
      { assert (K : exists s c' w', w = s ++ c' :: w' /\ blank s /\ is_digit c' /\ run (WantNumber, d) (c' :: w') = Some (mf, 0)).
        { clear - E0 Hf. induction w as [| c w IHw]; [cbn in E0; injection E0 as <- _; destruct Hf; discriminate |]. pose proof E0 as E1. cbn [run step] in E1. destruct (N.eqb_spec c 32) as [-> | Hc].
          - destruct (IHw E1) as (s & c' & w' & -> & H1 & H2 & H3). exists (32%N :: s), c', w'. split; [reflexivity |]. split; [now constructor |]. auto.
          - destruct (is_dig c) eqn:Ed; [| discriminate E1]. exists [], c, w. split; [reflexivity |]. split; [constructor |]. split; [now apply is_dig_iff | exact E0]. }
        destruct K as (s & c' & w' & -> & Hs & Hd & E1). destruct (number_tail d _ _ _ _ (or_intror eq_refl) Hd E1) as (ds & s' & r & m & -> & H1 & H2 & H3 & H4 & H5).
        exists [], (lit "-" ++ s ++ (c' :: ds) ++ s'), r. eexists. exists m. split; [cbn; now rewrite <- !app_assoc; cbn; rewrite <- !app_assoc |]. split; [constructor |]. split; [apply term_neg; auto; constructor; [discriminate | now constructor] |].
        repeat split; auto. cbn. rewrite !app_length. cbn. rewrite !app_length. lia. }
      destruct (is_dig c) eqn:Ed.
      { apply is_dig_iff in Ed. destruct (number_tail d _ _ _ _ (or_introl eq_refl) Ed E) as (ds & s' & r & m & -> & H1 & H2 & H3 & H4 & H5).
        exists [], ((c :: ds) ++ s'), r. eexists. exists m. split; [cbn; now rewrite <- !app_assoc |]. split; [constructor |]. split; [apply term_num; [constructor; [discriminate | now constructor] | exact H2] |].
        repeat split; auto. cbn. rewrite !app_length. lia. }
      destruct (N.eqb_spec c (chr "(")) as [-> | Hc2]; [| discriminate E0].
      destruct (expr_at N IH w (S d) mf ltac:(lia) E0 Hf) as (b & e & r & v & m & -> & Hb & He & Hm & E1 & Hr & Hl1). rewrite !app_length in Hl, Hl1.
      destruct Hr as [-> | Hr]; [cbn in E1; discriminate E1 |]. destruct r as [| c r]; [discriminate Hr |]. injection Hr as ->. cbn [run] in E1. replace (step (m, S d) (chr ")")) with (Some (AfterTerm, d)) in E1 by (destruct Hm as [-> | ->]; reflexivity).
      destruct (settle d _ r AfterTerm (or_intror eq_refl) E1 ltac:(discriminate)) as (s & r' & m' & -> & H4 & H5 & H6 & H7).
      exists [], (lit "(" ++ b ++ e ++ lit ")" ++ s), r', v, m'. split; [cbn; rewrite <- !app_assoc; cbn; now rewrite <- ?app_assoc |]. split; [constructor |]. split; [now apply term_paren |].
      repeat split; auto. cbn. rewrite !app_length. cbn. rewrite !app_length. lia.
  Qed.
End Accepted.
Theorem sentence_run s : sentence s <-> exists m, run (WantTerm, 0) s = Some (m, 0) /\ after m.
Proof.
  split.
  - intros (b & w & v & -> & Hb & He). destruct (proj2 (proj2 (run_sentence exact)) w v He 0) as (m & E & Hm). exists m. split; [| exact Hm]. rewrite run_app, run_blank_want; [exact E | exact Hb | intros [X | X]; discriminate X].
  - intros (m & E & Hm). destruct (expr_at exact (length s) (term_all exact (length s)) s 0 m (le_n _) E Hm) as (b & e & r & v & m' & -> & Hb & He & Hm' & E' & Hr & _).
    destruct Hr as [-> | Hr]; [exists b, e, v; rewrite app_nil_r; auto |]. destruct r as [| c r]; [discriminate Hr |]. injection Hr as ->. cbn [run] in E'. destruct Hm' as [-> | ->]; discriminate E'.
Qed.
Theorem viable_run u : viable u <-> exists q, run (WantTerm, 0) u = Some q.
Proof.
  split.
  - intros (t & H). apply sentence_run in H as (m & E & _). rewrite run_app in E. destruct (run (WantTerm, 0) u) as [q |]; [eauto | discriminate E].
  - intros ([m d] & E). assert (Hc : forall d m, after m -> exists m', run (m, d) (repeat (chr ")") d) = Some (m', 0) /\ after m').
    { clear. induction d as [| d IH]; intros m Hm; [exists m; auto |]. cbn [repeat run]. replace (step (m, S d) (chr ")")) with (Some (AfterTerm, d)) by (destruct Hm as [-> | ->]; reflexivity). apply IH. now right. }
    assert (K : exists x m', run (m, d) x = Some (m', d) /\ after m'). { destruct m; [exists (lit "0"), InNumber | exists (lit "0"), InNumber | exists [], InNumber | exists [], AfterTerm]; (split; [reflexivity | unfold after; auto]). }
    destruct K as (x & m1 & E1 & Hm1). destruct (Hc d m1 Hm1) as (m2 & E2 & Hm2). exists (x ++ repeat (chr ")") d). apply sentence_run. exists m2. split; [| exact Hm2]. now rewrite run_app, E, run_app, E1.
Qed.
