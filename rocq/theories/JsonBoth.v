(** * JsonBoth: the texts two JSON dialects read as the same value. *)
From Coq Require Import String.
From Verif Require Export SpecJson.
From Verif Require Import JsonPrint.
From Coq Require Import List Lia.
Open Scope list_scope.

Definition is_ws (c : char) : Prop := In c [32; 9; 10; 13]%N.
(** What may follow a value inside brackets or at the end; and with white space. *)
Definition hard (r : rstr) : Prop := match r with [] => True | c :: _ => c = chr "," \/ c = chr "]" \/ c = chr "}" end.
Definition soft (r : rstr) : Prop := match r with [] => True | c :: _ => is_ws c \/ c = chr "," \/ c = chr "]" \/ c = chr "}" end.
Lemma soft_ws b r : ws b -> hard r -> soft (b ++ r).
Proof. intros [| c w Hc Hw] Hr; [destruct r; cbn in *; tauto | left; exact Hc]. Qed.
Lemma ws_split a a' x x' : ws a -> ws a' -> a ++ x = a' ++ x' -> (forall c, hd_error x = Some c -> ~ is_ws c) -> (forall c, hd_error x' = Some c -> ~ is_ws c) -> a = a' /\ x = x'.
Proof.
  intros Ha. revert a'. induction Ha as [| c a Hc _ IH]; intros [| c' a'] Ha' E Hx Hx'; cbn in *.
  - auto.
  - exfalso. rewrite E in Hx. apply Forall_cons_iff in Ha' as [K _]. exact (Hx c' eq_refl K).
  - exfalso. rewrite <- E in Hx'. exact (Hx' c eq_refl Hc).
  - injection E as -> E. apply Forall_cons_iff in Ha' as [_ Ha']. destruct (IH a' Ha' E Hx Hx') as [-> ->]. auto.
Qed.
Lemma hard_not_ws r : hard r -> forall c, hd_error r = Some c -> ~ is_ws c.
Proof. destruct r as [| d r]; intros H c; [discriminate |]. intros [= ->]. cbn in H. unfold is_ws. destruct H as [-> | [-> | ->]]; cbn; intros K; repeat (destruct K as [K | K]; [discriminate K |]); exact K. Qed.
Lemma number_soft w w' r r' : Forall number_char w -> Forall number_char w' -> soft r -> soft r' -> w ++ r = w' ++ r' -> w = w' /\ r = r'.
Proof.
  assert (K : forall c, number_char c -> forall r, ~ soft (c :: r)).
  { intros c [Hc | Hc] r0 K; cbn in K; unfold digit, is_ws in *; cbn in K, Hc; repeat match goal with H : _ \/ _ |- _ => destruct H end; subst; try contradiction; try lia; try discriminate. }
  intros H. revert w'. induction H as [| c w Hc _ IH]; intros [| c' w'] H' Hr Hr' E; cbn [app] in *.
  - auto.
  - exfalso. subst r. apply Forall_cons_iff in H' as [Hc' _]. exact (K c' Hc' _ Hr).
  - exfalso. subst r'. exact (K c Hc _ Hr').
  - injection E as -> E. apply Forall_cons_iff in H' as [_ H']. destruct (IH w' H' Hr Hr' E) as [-> ->]. auto.
Qed.

Section Both.
  Context {num : Type}.
  Variables D1 D2 D3 : dialect num.
  Hypothesis plain1 : forall c, plain D1 c -> c <> quote /\ c <> backslash.
  Hypothesis plain2 : forall c, plain D2 c -> c <> quote /\ c <> backslash.
  Hypothesis plain3 : forall c, plain D1 c -> plain D2 c -> plain D3 c.
  Hypothesis unicode3 : forall u u' c r r', unicode D1 u c -> unicode D2 u' c -> u ++ r = u' ++ r' -> u = u' /\ unicode D3 u c.
  Hypothesis number1 : forall w n, number_is D1 w n -> Forall number_char w /\ w <> [].
  Hypothesis number2 : forall w n, number_is D2 w n -> Forall number_char w /\ w <> [].
  Hypothesis number3 : forall w n, number_is D1 w n -> number_is D2 w n -> number_is D3 w n.
  Hypothesis empty1 : forall w, inside_empty D1 w -> ws w.
  Hypothesis empty2 : forall w, inside_empty D2 w -> ws w.
  Hypothesis empty3 : forall w, inside_empty D1 w -> inside_empty D2 w -> inside_empty D3 w.

  Lemma escape_not_u c : ~ escape (chr "u") c.
  Proof. unfold escape. intros H. repeat (destruct H as [H | H]; [discriminate H |]). exact H. Qed.
  Lemma chars_both w s : Chars D1 w s -> forall w' r r', Chars D2 w' s -> w ++ quote :: r = w' ++ quote :: r' -> w = w' /\ r = r' /\ Chars D3 w s.
  Proof.
    induction 1 as [| c w s Hc _ IH | e c w s He _ IH | u c w s Hu _ IH]; intros w' r r' H' E.
    - inversion H'; subst. injection E as ->. repeat split. constructor.
    - inversion H'; subst.
      + cbn in E. injection E as E. destruct (IH _ _ _ H3 E) as (-> & -> & K). repeat split. apply chars_plain; auto.
      + cbn in E. injection E as E0 E. elim (proj2 (plain1 _ Hc)). exact E0.
      + cbn in E. injection E as E0 E. elim (proj2 (plain1 _ Hc)). exact E0.
    - inversion H'; subst.
      + cbn in E. injection E as E0 E. elim (proj2 (plain2 _ H2)). auto.
      + cbn in E. injection E as -> E. destruct (IH _ _ _ H3 E) as (-> & -> & K). repeat split. apply chars_escape; auto.
      + cbn in E. injection E as -> E. elim (escape_not_u _ He).
    - inversion H'; subst.
      + cbn in E. injection E as E0 E. elim (proj2 (plain2 _ H2)). auto.
      + cbn in E. injection E as <- E. elim (escape_not_u _ H2).
      + cbn in E. injection E as E. rewrite <- !app_assoc in E. destruct (unicode3 _ _ _ _ _ Hu H2 E) as [-> K]. apply app_inv_head in E.
        destruct (IH _ _ _ H3 E) as (-> & -> & K'). repeat split. now apply chars_unicode.
  Qed.
  Lemma quoted_both w s w' r r' : Quoted D1 w s -> Quoted D2 w' s -> w ++ r = w' ++ r' -> w = w' /\ r = r' /\ Quoted D3 w s.
  Proof.
    intros [w0 s0 H] H'. inversion H'; subst. cbn. rewrite <- !app_assoc. cbn. intros E. injection E as E. destruct (chars_both _ _ H _ _ _ H0 E) as (-> & -> & K). repeat split. exact K.
  Qed.

  Definition val_start (D : dialect num) : Prop := forall w v, Val D w v -> forall r c, hd_error (w ++ r) = Some c -> ~ is_ws c.
  Lemma start_of D (Hn : forall w n, number_is D w n -> Forall number_char w /\ w <> []) : val_start D.
  Proof.
    assert (K : forall c, number_char c -> ~ is_ws c).
    { intros c [Hc | Hc] K; unfold digit, is_ws in *; cbn in K, Hc; repeat match goal with H : _ \/ _ |- _ => destruct H end; subst; try contradiction; try lia; try discriminate. }
    assert (K2 : forall c d : char, Some c = Some d -> In c (lit "ntf[{" ++ [quote]) -> ~ is_ws d).
    { intros c d [= <-] Hc. cbn in Hc. unfold is_ws. intros Hw. cbn in Hw. repeat match goal with H : _ \/ _ |- _ => destruct H end; subst; try contradiction; discriminate. }
    intros w v Hv r c Hc. inversion Hv; subst; cbn [lit app hd_error] in Hc.
    1-3: (eapply K2; [exact Hc | cbn; tauto]).
    - destruct (Hn _ _ H) as [F N]. destruct w as [| d w]; [now elim N |]. injection Hc as ->. apply Forall_cons_iff in F as [F _]. auto.
    - inversion H; subst. eapply K2; [exact Hc | cbn; tauto].
    - eapply K2; [exact Hc | cbn; tauto].
    - eapply K2; [exact Hc | cbn; tauto].
    - eapply K2; [exact Hc | cbn; tauto].
    - eapply K2; [exact Hc | cbn; tauto].
  Qed.

  Lemma texts_both :
    (forall w v, Val D1 w v -> forall w' r r', Val D2 w' v -> soft r -> soft r' -> w ++ r = w' ++ r' -> w = w' /\ r = r' /\ Val D3 w v) /\
    (forall w v, Padded D1 w v -> forall w' r r', Padded D2 w' v -> hard r -> hard r' -> w ++ r = w' ++ r' -> w = w' /\ r = r' /\ Padded D3 w v) /\
    (forall w l, Elements D1 w l -> forall w' r r', Elements D2 w' l -> hard r -> hard r' -> w ++ r = w' ++ r' -> w = w' /\ r = r' /\ Elements D3 w l) /\
    (forall w m, Member D1 w m -> forall w' r r', Member D2 w' m -> hard r -> hard r' -> w ++ r = w' ++ r' -> w = w' /\ r = r' /\ Member D3 w m) /\
    (forall w l, Members D1 w l -> forall w' r r', Members D2 w' l -> hard r -> hard r' -> w ++ r = w' ++ r' -> w = w' /\ r = r' /\ Members D3 w l).
  Proof.
    assert (B : forall (d : char) r, d = chr "]" \/ d = chr "}" \/ d = chr "," -> hard (d :: r)) by (intros d r H; cbn; tauto).
    assert (NB : forall (d : char) r, d = chr "]" \/ d = chr "}" \/ d = chr "," -> forall c, hd_error (d :: r) = Some c -> ~ is_ws c) by (intros d r H; apply hard_not_ws; auto).
    apply (texts_min num D1
      (fun w v => forall w' r r', Val D2 w' v -> soft r -> soft r' -> w ++ r = w' ++ r' -> w = w' /\ r = r' /\ Val D3 w v)
      (fun w v => forall w' r r', Padded D2 w' v -> hard r -> hard r' -> w ++ r = w' ++ r' -> w = w' /\ r = r' /\ Padded D3 w v)
      (fun w l => forall w' r r', Elements D2 w' l -> hard r -> hard r' -> w ++ r = w' ++ r' -> w = w' /\ r = r' /\ Elements D3 w l)
      (fun w m => forall w' r r', Member D2 w' m -> hard r -> hard r' -> w ++ r = w' ++ r' -> w = w' /\ r = r' /\ Member D3 w m)
      (fun w l => forall w' r r', Members D2 w' l -> hard r -> hard r' -> w ++ r = w' ++ r' -> w = w' /\ r = r' /\ Members D3 w l)).
    - intros w' r r' H' _ _ E. inversion H'; subst. apply app_inv_head in E. split; [reflexivity | split; [exact E | constructor]].
    - intros w' r r' H' _ _ E. inversion H'; subst. apply app_inv_head in E. split; [reflexivity | split; [exact E | constructor]].
    - intros w' r r' H' _ _ E. inversion H'; subst. apply app_inv_head in E. split; [reflexivity | split; [exact E | constructor]].
    - intros w n Hn w' r r' H' Hr Hr' E. inversion H'; subst. destruct (number_soft w w' r r') as [-> ->]; [apply (number1 w n Hn) | eapply number2; eauto | assumption ..|]. split; [reflexivity | split; [reflexivity |]]. apply val_number. auto.
    - intros w s Hq w' r r' H' _ _ E. inversion H'; subst. match goal with X : Quoted D2 _ _ |- _ => destruct (quoted_both _ _ _ _ _ Hq X E) as (-> & -> & K) end. split; [reflexivity | split; [reflexivity |]]. now apply val_string.
    - intros w He w' r r' H' _ _ E. inversion H'; subst; [| match goal with X : Elements _ _ [] |- _ => inversion X | X : Members _ _ [] |- _ => inversion X end]. cbn in E. rewrite <- !app_assoc in E. injection E as E. change (chr "]" :: r) with (lit "]" ++ r) in E.
      destruct (ws_split w w0 (lit "]" ++ r) (lit "]" ++ r')) as [-> E']; auto; try (apply NB; tauto). injection E' as ->. split; [reflexivity | split; [reflexivity |]]. apply val_array0. auto.
    - intros w l Hl IH w' r r' H' _ _ E. inversion H'; subst; [inversion Hl |]. rewrite <- !app_assoc in E. apply app_inv_head in E.
      match goal with X : Elements D2 ?w0 _ |- _ => destruct (IH w0 (lit "]" ++ r) (lit "]" ++ r') X) as (-> & E' & K); [apply B; tauto | apply B; tauto | exact E |] end. injection E' as ->. split; [reflexivity | split; [reflexivity |]]. now apply val_array.
    - intros w He w' r r' H' _ _ E. inversion H'; subst; [| match goal with X : Elements _ _ [] |- _ => inversion X | X : Members _ _ [] |- _ => inversion X end]. cbn in E. rewrite <- !app_assoc in E. injection E as E.
      destruct (ws_split w w0 (lit "}" ++ r) (lit "}" ++ r')) as [-> E']; auto; try (apply NB; tauto). injection E' as ->. split; [reflexivity | split; [reflexivity |]]. apply val_object0. auto.
    - intros w l Hl IH w' r r' H' _ _ E. inversion H'; subst; [inversion Hl |]. rewrite <- !app_assoc in E. apply app_inv_head in E.
      match goal with X : Members D2 ?w0 _ |- _ => destruct (IH w0 (lit "}" ++ r) (lit "}" ++ r') X) as (-> & E' & K); [apply B; tauto | apply B; tauto | exact E |] end. injection E' as ->. split; [reflexivity | split; [reflexivity |]]. now apply val_object.
    - intros a w b v Ha Hv IH Hb w' r r' H' Hr Hr' E. inversion H' as [a' w1 b' v1 Ha' Hv' Hb']; subst. rewrite <- !app_assoc in E.
      destruct (ws_split a a' (w ++ b ++ r) (w1 ++ b' ++ r')) as [-> E1]; auto; [exact (start_of D1 number1 _ _ Hv _) | exact (start_of D2 number2 _ _ Hv' _) |].
      destruct (IH w1 (b ++ r) (b' ++ r') Hv') as (-> & E2 & K); [now apply soft_ws | now apply soft_ws | exact E1 |].
      destruct (ws_split b b' r r') as [-> ->]; auto; try (now apply hard_not_ws). split; [reflexivity | split; [reflexivity |]]. now constructor.
    - intros w v Hv IH w' r r' H' Hr Hr' E. inversion H'; subst; [| match goal with X : Elements _ _ [] |- _ => inversion X | X : Members _ _ [] |- _ => inversion X end]. destruct (IH w' r r') as (-> & -> & K); auto. split; [reflexivity | split; [reflexivity |]]. now constructor.
    - intros w v w2 l Hv IH Hl IHl w' r r' H' Hr Hr' E. inversion H'; subst; [inversion Hl |]. rewrite <- !app_assoc in E.
      destruct (IH w0 (lit "," ++ w2 ++ r) (lit "," ++ w'0 ++ r') H2) as (-> & E' & K); [apply B; tauto | apply B; tauto | exact E |]. injection E' as E'.
      destruct (IHl w'0 r r' H3) as (-> & -> & K'); auto. split; [reflexivity | split; [reflexivity |]]. now constructor.
    - intros a q k b w v Ha Hq Hb Hv IH w' r r' H' Hr Hr' E. inversion H' as [a' q' k' b' w1 v1 Ha' Hq' Hb' Hv']; subst. rewrite <- !app_assoc in E.
      assert (Q : forall (D : dialect num) q r, Quoted D q k -> forall c, hd_error (q ++ r) = Some c -> ~ is_ws c).
      { intros D q0 r0 [w0 s0 _] c Hc. injection Hc as <-. unfold is_ws. cbn. intros K. repeat (destruct K as [K | K]; [discriminate K |]). exact K. }
      destruct (ws_split a a' (q ++ b ++ lit ":" ++ w ++ r) (q' ++ b' ++ lit ":" ++ w1 ++ r')) as [-> E1]; auto; [eapply Q; eauto | eapply Q; eauto |].
      destruct (quoted_both _ _ _ _ _ Hq Hq' E1) as (-> & E2 & K).
      destruct (ws_split b b' (lit ":" ++ w ++ r) (lit ":" ++ w1 ++ r')) as [-> E3]; auto.
      { intros c [= <-]. unfold is_ws. cbn. intros X. repeat (destruct X as [X | X]; [discriminate X |]). exact X. }
      { intros c [= <-]. unfold is_ws. cbn. intros X. repeat (destruct X as [X | X]; [discriminate X |]). exact X. }
      injection E3 as E3. destruct (IH w1 r r' Hv') as (-> & -> & K'); auto. split; [reflexivity | split; [reflexivity |]]. now constructor.
    - intros w v Hv IH w' r r' H' Hr Hr' E. inversion H'; subst; [| match goal with X : Elements _ _ [] |- _ => inversion X | X : Members _ _ [] |- _ => inversion X end]. destruct (IH w' r r') as (-> & -> & K); auto. split; [reflexivity | split; [reflexivity |]]. now constructor.
    - intros w v w2 l Hv IH Hl IHl w' r r' H' Hr Hr' E. inversion H'; subst; [inversion Hl |]. rewrite <- !app_assoc in E.
      destruct (IH w0 (lit "," ++ w2 ++ r) (lit "," ++ w'0 ++ r') H2) as (-> & E' & K); [apply B; tauto | apply B; tauto | exact E |]. injection E' as E'.
      destruct (IHl w'0 r r' H3) as (-> & -> & K'); auto. split; [reflexivity | split; [reflexivity |]]. now constructor.
  Qed.
  Corollary padded_both s v : Padded D1 s v -> Padded D2 s v -> Padded D3 s v.
  Proof. intros H1 H2. now destruct (proj1 (proj2 texts_both) s v H1 s [] [] H2) as (_ & _ & K). Qed.
End Both.
