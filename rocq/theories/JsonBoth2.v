(** * JsonBoth2: the texts two JSON dialects both read, as whatever value. *)
From Coq Require Import String.
From Verif Require Import JsonPrint.
From Verif Require Export JsonBoth.
From Coq Require Import List Lia.
Open Scope list_scope.

(** The kind of a value, by the character its text starts with. *)
Definition starts_as {num} (v : value num) (c : char) : Prop :=
  match v with
  | JNull => c = chr "n" | JBool true => c = chr "t" | JBool false => c = chr "f" | JNumber _ => number_char c
  | JString _ => c = quote | JArray _ => c = chr "[" | JObject _ => c = chr "{" end.
Definition kind_of {num} (v : value num) : nat :=
  match v with JNull => 0 | JBool true => 1 | JBool false => 2 | JNumber _ => 3 | JString _ => 4 | JArray _ => 5 | JObject _ => 6 end.
Lemma starts_kind {num num'} (v : value num) (v' : value num') c : starts_as v c -> starts_as v' c -> kind_of v = kind_of v'.
Proof.
  unfold starts_as, number_char, digit. destruct v as [| [] | | | |], v' as [| [] | | | |]; cbn; intros H H'; try reflexivity; exfalso; subst; try discriminate; unfold quote in *;
    repeat match goal with H : _ \/ _ |- _ => destruct H end; try contradiction; try discriminate; try lia.
Qed.
Lemma val_starts {num} (D : dialect num) (Hn : forall w n, number_is D w n -> Forall number_char w /\ w <> []) w v : Val D w v -> exists c w', w = c :: w' /\ starts_as v c.
Proof.
  intros H. inversion H; subst; cbn [starts_as]; try (eexists; eexists; split; reflexivity).
  - destruct (Hn _ _ H0) as [F N]. destruct w as [| c w]; [now elim N |]. apply Forall_cons_iff in F as [F _]. eauto.
  - inversion H0; subst. eauto.
Qed.

Section Both2.
  Context {num num' : Type}.
  Variables (D1 : dialect num) (D2 : dialect num') (D3 : dialect num).
  Hypothesis plain1 : forall c, plain D1 c -> c <> quote /\ c <> backslash.
  Hypothesis plain2 : forall c, plain D2 c -> c <> quote /\ c <> backslash.
  Hypothesis plain3 : forall c, plain D1 c -> plain D2 c -> plain D3 c.
  Hypothesis unicode3 : forall u u' c c' r r', unicode D1 u c -> unicode D2 u' c' -> u ++ r = u' ++ r' -> u = u' /\ unicode D3 u c.
  Hypothesis number1 : forall w n, number_is D1 w n -> Forall number_char w /\ w <> [].
  Hypothesis number2 : forall w n, number_is D2 w n -> Forall number_char w /\ w <> [].
  Hypothesis number3 : forall w n n', number_is D1 w n -> number_is D2 w n' -> number_is D3 w n.
  Hypothesis empty1 : forall w, inside_empty D1 w -> ws w.
  Hypothesis empty2 : forall w, inside_empty D2 w -> ws w.
  Hypothesis empty3 : forall w, inside_empty D1 w -> inside_empty D2 w -> inside_empty D3 w.

  Lemma chars_both2 w s : Chars D1 w s -> forall w' s' r r', Chars D2 w' s' -> w ++ quote :: r = w' ++ quote :: r' -> w = w' /\ r = r' /\ Chars D3 w s.
  Proof.
    induction 1 as [| c w s Hc _ IH | e c w s He _ IH | u c w s Hu _ IH]; intros w' s' r r' H' E.
    - inversion H'; subst; cbn in E.
      + injection E as ->. repeat split. constructor.
      + injection E as E0 E. elim (proj1 (plain2 _ H)). auto.
      + discriminate E.
      + discriminate E.
    - inversion H'; subst; cbn in E.
      + injection E as E0 E. elim (proj1 (plain1 _ Hc)). auto.
      + injection E as <- E. destruct (IH _ _ _ _ H0 E) as (-> & -> & K). repeat split. apply chars_plain; auto.
      + injection E as E0 E. elim (proj2 (plain1 _ Hc)). exact E0.
      + injection E as E0 E. elim (proj2 (plain1 _ Hc)). exact E0.
    - inversion H'; subst; cbn in E.
      + discriminate E.
      + injection E as E0 E. elim (proj2 (plain2 _ H)). auto.
      + injection E as -> E. destruct (IH _ _ _ _ H0 E) as (-> & -> & K). repeat split. apply chars_escape; auto.
      + injection E as -> E. elim (escape_not_u _ He).
    - inversion H'; subst; cbn in E.
      + discriminate E.
      + injection E as E0 E. elim (proj2 (plain2 _ H)). auto.
      + injection E as <- E. elim (escape_not_u _ H).
      + injection E as E. rewrite <- !app_assoc in E. destruct (unicode3 _ _ _ _ _ _ Hu H E) as [-> K]. apply app_inv_head in E.
        destruct (IH _ _ _ _ H0 E) as (-> & -> & K'). repeat split. now apply chars_unicode.
  Qed.
  Lemma quoted_both2 w s w' s' r r' : Quoted D1 w s -> Quoted D2 w' s' -> w ++ r = w' ++ r' -> w = w' /\ r = r' /\ Quoted D3 w s.
  Proof.
    intros [w0 s0 H] H'. inversion H'; subst. cbn. rewrite <- !app_assoc. cbn. intros E. injection E as E. destruct (chars_both2 _ _ H _ _ _ _ H0 E) as (-> & -> & K). repeat split. exact K.
  Qed.

  Definition opens (r : rstr) : Prop := forall c, hd_error r = Some c -> ~ is_ws c /\ c <> chr "]" /\ c <> chr "}".
  Lemma starts_opens {n} (v : value n) c : starts_as v c -> ~ is_ws c /\ c <> chr "]" /\ c <> chr "}".
  Proof.
    assert (K : forall d : char, In d (lit "ntf[{" ++ [quote]) -> ~ is_ws d /\ d <> chr "]" /\ d <> chr "}").
    { intros d Hd. unfold is_ws. cbn in Hd. repeat match goal with H : _ \/ _ |- _ => destruct H end; subst; try contradiction; (split; [intros X; cbn in X; repeat (destruct X as [X | X]; [discriminate X |]); exact X | split; discriminate]). }
    destruct v as [| [] | | | |]; cbn [starts_as]; try (intros ->; apply K; cbn; tauto).
    intros Hc. unfold number_char, digit, is_ws in *. cbn in Hc |- *. split; [intros X | split; intros X]; repeat match goal with H : _ \/ _ |- _ => destruct H end; subst; try contradiction; try discriminate; try lia.
  Qed.
  Lemma padded_opens {n} (D : dialect n) (Hn : forall w n, number_is D w n -> Forall number_char w /\ w <> []) w v : Padded D w v -> exists a x, w = a ++ x /\ ws a /\ x <> [] /\ opens x.
  Proof.
    intros [a w0 b v0 Ha Hv Hb]. destruct (val_starts D Hn _ _ Hv) as (c & w' & -> & Hc). exists a, ((c :: w') ++ b). split; [reflexivity |]. split; [exact Ha |]. split; [discriminate |].
    intros d [= <-]. eapply starts_opens; eauto.
  Qed.
  Lemma elements_opens {n} (D : dialect n) (Hn : forall w n, number_is D w n -> Forall number_char w /\ w <> []) w l : Elements D w l -> exists a x, w = a ++ x /\ ws a /\ x <> [] /\ opens x.
  Proof.
    intros H. assert (K : exists w0 v r, Padded D w0 v /\ w = w0 ++ r) by (inversion H; subst; [exists w, v, []; now rewrite app_nil_r | eauto]).
    destruct K as (w0 & v & r & Hp & ->). destruct (padded_opens D Hn _ _ Hp) as (a & x & -> & Ha & Hx & Ho). exists a, (x ++ r). rewrite <- app_assoc. split; [reflexivity |]. split; [exact Ha |].
    destruct x as [| c x]; [now elim Hx |]. split; [discriminate |]. exact Ho.
  Qed.
  Lemma members_opens {n} (D : dialect n) w l : Members D w l -> exists a x, w = a ++ x /\ ws a /\ x <> [] /\ opens x.
  Proof.
    intros H. assert (K : exists w0 m r, Member D w0 m /\ w = w0 ++ r) by (inversion H; subst; [eexists; eexists; exists []; rewrite app_nil_r; split; [eassumption | reflexivity] | eauto]).
    destruct K as (w0 & m & r & Hm & ->). destruct Hm as [a q k b w v Ha Hq Hb Hv]. destruct Hq as [w1 s1 _]. eexists a, _. rewrite <- !app_assoc. split; [reflexivity |]. split; [exact Ha |]. split; [discriminate |].
    intros c [= <-]. apply (starts_opens (@JString n [])). reflexivity.
  Qed.
  (** An empty pair of brackets is not one that has something in it. *)
  Lemma not_empty w d r a x z : ws w -> d = chr "]" \/ d = chr "}" -> ws a -> x <> [] -> opens x -> w ++ d :: r <> (a ++ x) ++ z.
  Proof.
    intros Hw Hd Ha Hx Ho E. destruct x as [| c x]; [now elim Hx |]. rewrite <- app_assoc in E. destruct (Ho c eq_refl) as (O1 & O2 & O3).
    destruct (ws_split w a (d :: r) ((c :: x) ++ z)) as [_ E']; auto.
    - intros e [= <-]. apply (hard_not_ws (d :: r)); [cbn; destruct Hd as [-> | ->]; tauto | reflexivity].
    - intros e [= <-]. exact O1.
    - injection E' as -> _. tauto.
  Qed.

  Lemma texts_both2 :
    (forall w v, Val D1 w v -> forall w' v' r r', Val D2 w' v' -> soft r -> soft r' -> w ++ r = w' ++ r' -> w = w' /\ r = r' /\ Val D3 w v) /\
    (forall w v, Padded D1 w v -> forall w' v' r r', Padded D2 w' v' -> hard r -> hard r' -> w ++ r = w' ++ r' -> w = w' /\ r = r' /\ Padded D3 w v) /\
    (forall w l, Elements D1 w l -> forall w' l' d d' r r', Elements D2 w' l' -> d <> chr "," -> d' <> chr "," -> hard (d :: r) -> hard (d' :: r') -> w ++ d :: r = w' ++ d' :: r' -> w = w' /\ r = r' /\ Elements D3 w l) /\
    (forall w m, Member D1 w m -> forall w' m' r r', Member D2 w' m' -> hard r -> hard r' -> w ++ r = w' ++ r' -> w = w' /\ r = r' /\ Member D3 w m) /\
    (forall w l, Members D1 w l -> forall w' l' d d' r r', Members D2 w' l' -> d <> chr "," -> d' <> chr "," -> hard (d :: r) -> hard (d' :: r') -> w ++ d :: r = w' ++ d' :: r' -> w = w' /\ r = r' /\ Members D3 w l).
  Proof.
    assert (B : forall (d : char) r, d = chr "]" \/ d = chr "}" \/ d = chr "," -> hard (d :: r)) by (intros d r H; cbn; tauto).
    assert (NB : forall (d : char) r, d = chr "]" \/ d = chr "}" \/ d = chr "," -> forall c, hd_error (d :: r) = Some c -> ~ is_ws c) by (intros d r H; apply hard_not_ws; auto).
    assert (Kind : forall w v w' v' r r', Val D1 w v -> Val D2 w' v' -> w ++ r = w' ++ r' -> kind_of v = kind_of v').
    { intros w v w' v' r r' H H' E. destruct (val_starts D1 number1 _ _ H) as (c & x & -> & Hc). destruct (val_starts D2 number2 _ _ H') as (c' & x' & -> & Hc'). injection E as -> _. eapply starts_kind; eauto. }
    apply (texts_min num D1
      (fun w v => forall w' v' r r', Val D2 w' v' -> soft r -> soft r' -> w ++ r = w' ++ r' -> w = w' /\ r = r' /\ Val D3 w v)
      (fun w v => forall w' v' r r', Padded D2 w' v' -> hard r -> hard r' -> w ++ r = w' ++ r' -> w = w' /\ r = r' /\ Padded D3 w v)
      (fun w l => forall w' l' d d' r r', Elements D2 w' l' -> d <> chr "," -> d' <> chr "," -> hard (d :: r) -> hard (d' :: r') -> w ++ d :: r = w' ++ d' :: r' -> w = w' /\ r = r' /\ Elements D3 w l)
      (fun w m => forall w' m' r r', Member D2 w' m' -> hard r -> hard r' -> w ++ r = w' ++ r' -> w = w' /\ r = r' /\ Member D3 w m)
      (fun w l => forall w' l' d d' r r', Members D2 w' l' -> d <> chr "," -> d' <> chr "," -> hard (d :: r) -> hard (d' :: r') -> w ++ d :: r = w' ++ d' :: r' -> w = w' /\ r = r' /\ Members D3 w l)).
    - intros w' v' r r' H' _ _ E. pose proof (Kind _ _ _ _ _ _ (val_null D1) H' E) as Kd. inversion H'; subst; try discriminate Kd. apply app_inv_head in E. split; [reflexivity | split; [exact E | constructor]].
    - intros w' v' r r' H' _ _ E. pose proof (Kind _ _ _ _ _ _ (val_true D1) H' E) as Kd. inversion H'; subst; try discriminate Kd. apply app_inv_head in E. split; [reflexivity | split; [exact E | constructor]].
    - intros w' v' r r' H' _ _ E. pose proof (Kind _ _ _ _ _ _ (val_false D1) H' E) as Kd. inversion H'; subst; try discriminate Kd. apply app_inv_head in E. split; [reflexivity | split; [exact E | constructor]].
    - intros w n Hn w' v' r r' H' Hr Hr' E. pose proof (Kind _ _ _ _ _ _ (val_number D1 w n Hn) H' E) as Kd. inversion H' as [| | | x n' Hn' | | | | |]; subst; try discriminate Kd.
      destruct (number_soft w w' r r') as [-> ->]; [apply (number1 w n Hn) | eapply number2; eauto | assumption ..|]. split; [reflexivity | split; [reflexivity |]]. apply val_number. eauto.
    - intros w s Hq w' v' r r' H' _ _ E. pose proof (Kind _ _ _ _ _ _ (val_string D1 w s Hq) H' E) as Kd. inversion H' as [| | | | x s' Hq' | | | |]; subst; try discriminate Kd.
      destruct (quoted_both2 _ _ _ _ _ _ Hq Hq' E) as (-> & -> & K). split; [reflexivity | split; [reflexivity |]]. now apply val_string.
    - intros w He w' v' r r' H' _ _ E. pose proof (Kind _ _ _ _ _ _ (val_array0 D1 w He) H' E) as Kd. inversion H' as [| | | | | x He' | x l' Hl' | |]; subst; try discriminate Kd; rewrite <- !app_assoc in E; apply app_inv_head in E.
      + destruct (ws_split w x (lit "]" ++ r) (lit "]" ++ r')) as [-> E']; auto; try (apply NB; tauto). injection E' as ->. split; [reflexivity | split; [reflexivity |]]. apply val_array0. auto.
      + exfalso. destruct (elements_opens D2 number2 _ _ Hl') as (a & y & -> & Ha & Hy & Ho). now apply (not_empty w (chr "]") r a y (lit "]" ++ r')); auto.
    - intros w l Hl IH w' v' r r' H' _ _ E. pose proof (Kind _ _ _ _ _ _ (val_array D1 w l Hl) H' E) as Kd. inversion H' as [| | | | | x He' | x l' Hl' | |]; subst; try discriminate Kd; rewrite <- !app_assoc in E; apply app_inv_head in E.
      + exfalso. destruct (elements_opens D1 number1 _ _ Hl) as (a & y & -> & Ha & Hy & Ho). now apply (not_empty x (chr "]") r' a y (lit "]" ++ r)); auto.
      + destruct (IH x l' (chr "]") (chr "]") r r' Hl') as (-> & -> & K); [discriminate | discriminate | apply B; tauto | apply B; tauto | exact E |]. split; [reflexivity | split; [reflexivity |]]. now apply val_array.
    - intros w He w' v' r r' H' _ _ E. pose proof (Kind _ _ _ _ _ _ (val_object0 D1 w He) H' E) as Kd. inversion H' as [| | | | | | | x He' | x l' Hl']; subst; try discriminate Kd; rewrite <- !app_assoc in E; apply app_inv_head in E.
      + destruct (ws_split w x (lit "}" ++ r) (lit "}" ++ r')) as [-> E']; auto; try (apply NB; tauto). injection E' as ->. split; [reflexivity | split; [reflexivity |]]. apply val_object0. auto.
      + exfalso. destruct (members_opens D2 _ _ Hl') as (a & y & -> & Ha & Hy & Ho). now apply (not_empty w (chr "}") r a y (lit "}" ++ r')); auto.
    - intros w l Hl IH w' v' r r' H' _ _ E. pose proof (Kind _ _ _ _ _ _ (val_object D1 w l Hl) H' E) as Kd. inversion H' as [| | | | | | | x He' | x l' Hl']; subst; try discriminate Kd; rewrite <- !app_assoc in E; apply app_inv_head in E.
      + exfalso. destruct (members_opens D1 _ _ Hl) as (a & y & -> & Ha & Hy & Ho). now apply (not_empty x (chr "}") r' a y (lit "}" ++ r)); auto.
      + destruct (IH x l' (chr "}") (chr "}") r r' Hl') as (-> & -> & K); [discriminate | discriminate | apply B; tauto | apply B; tauto | exact E |]. split; [reflexivity | split; [reflexivity |]]. now apply val_object.
    - intros a w b v Ha Hv IH Hb w' v' r r' H' Hr Hr' E. inversion H' as [a' w1 b' v1 Ha' Hv' Hb']; subst. rewrite <- !app_assoc in E.
      destruct (ws_split a a' (w ++ b ++ r) (w1 ++ b' ++ r')) as [-> E1]; auto; [exact (start_of D1 number1 _ _ Hv _) | exact (start_of D2 number2 _ _ Hv' _) |].
      destruct (IH w1 v' (b ++ r) (b' ++ r') Hv') as (-> & E2 & K); [now apply soft_ws | now apply soft_ws | exact E1 |].
      destruct (ws_split b b' r r') as [-> ->]; auto; try (now apply hard_not_ws). split; [reflexivity | split; [reflexivity |]]. now constructor.
    - intros w v Hv IH w' l' d d' r r' H' Hd Hd' Hr Hr' E. inversion H' as [x v' Hv' | x v' x' l2 Hv' Hl']; subst.
      + destruct (IH w' v' (d :: r) (d' :: r') Hv') as (-> & E' & K); auto. injection E' as -> ->. split; [reflexivity | split; [reflexivity |]]. now constructor.
      + exfalso. rewrite <- !app_assoc in E. destruct (IH x v' (d :: r) (lit "," ++ x' ++ d' :: r') Hv') as (_ & E' & _); [exact Hr | apply B; tauto | exact E |]. injection E' as -> _. now elim Hd.
    - intros w v w2 l Hv IH Hl IHl w' l' d d' r r' H' Hd Hd' Hr Hr' E. rewrite <- !app_assoc in E. inversion H' as [x v' Hv' | x v' x' l2 Hv' Hl']; subst.
      + exfalso. destruct (IH w' v' (lit "," ++ w2 ++ d :: r) (d' :: r') Hv') as (_ & E' & _); [apply B; tauto | exact Hr' | exact E |]. injection E' as <- _. now elim Hd'.
      + rewrite <- !app_assoc in E. destruct (IH x v' (lit "," ++ w2 ++ d :: r) (lit "," ++ x' ++ d' :: r') Hv') as (-> & E' & K); [apply B; tauto | apply B; tauto | exact E |]. injection E' as E'.
        destruct (IHl x' l2 d d' r r' Hl') as (-> & -> & K'); auto. split; [reflexivity | split; [reflexivity |]]. now constructor.
    - intros a q k b w v Ha Hq Hb Hv IH w' m' r r' H' Hr Hr' E. inversion H' as [a' q' k' b' w1 v1 Ha' Hq' Hb' Hv']; subst. rewrite <- !app_assoc in E.
      assert (Q : forall n (D : dialect n) q k r, Quoted D q k -> forall c, hd_error (q ++ r) = Some c -> ~ is_ws c).
      { intros n D q0 k0 r0 [w0 s0 _] c Hc. injection Hc as <-. unfold is_ws. cbn. intros K. repeat (destruct K as [K | K]; [discriminate K |]). exact K. }
      destruct (ws_split a a' (q ++ b ++ lit ":" ++ w ++ r) (q' ++ b' ++ lit ":" ++ w1 ++ r')) as [-> E1]; auto; [eapply Q; eauto | eapply Q; eauto |].
      destruct (quoted_both2 _ _ _ _ _ _ Hq Hq' E1) as (-> & E2 & K).
      destruct (ws_split b b' (lit ":" ++ w ++ r) (lit ":" ++ w1 ++ r')) as [-> E3]; auto.
      { intros c [= <-]. unfold is_ws. cbn. intros X. repeat (destruct X as [X | X]; [discriminate X |]). exact X. }
      { intros c [= <-]. unfold is_ws. cbn. intros X. repeat (destruct X as [X | X]; [discriminate X |]). exact X. }
      injection E3 as E3. destruct (IH w1 v1 r r' Hv') as (-> & -> & K'); auto. split; [reflexivity | split; [reflexivity |]]. now constructor.
    - intros w v Hv IH w' l' d d' r r' H' Hd Hd' Hr Hr' E. inversion H' as [x v' Hv' | x v' x' l2 Hv' Hl']; subst.
      + destruct (IH w' v' (d :: r) (d' :: r') Hv') as (-> & E' & K); auto. injection E' as -> ->. split; [reflexivity | split; [reflexivity |]]. now constructor.
      + exfalso. rewrite <- !app_assoc in E. destruct (IH x v' (d :: r) (lit "," ++ x' ++ d' :: r') Hv') as (_ & E' & _); [exact Hr | apply B; tauto | exact E |]. injection E' as -> _. now elim Hd.
    - intros w v w2 l Hv IH Hl IHl w' l' d d' r r' H' Hd Hd' Hr Hr' E. rewrite <- !app_assoc in E. inversion H' as [x v' Hv' | x v' x' l2 Hv' Hl']; subst.
      + exfalso. destruct (IH w' v' (lit "," ++ w2 ++ d :: r) (d' :: r') Hv') as (_ & E' & _); [apply B; tauto | exact Hr' | exact E |]. injection E' as <- _. now elim Hd'.
      + rewrite <- !app_assoc in E. destruct (IH x v' (lit "," ++ w2 ++ d :: r) (lit "," ++ x' ++ d' :: r') Hv') as (-> & E' & K); [apply B; tauto | apply B; tauto | exact E |]. injection E' as E'.
        destruct (IHl x' l2 d d' r r' Hl') as (-> & -> & K'); auto. split; [reflexivity | split; [reflexivity |]]. now constructor.
  Qed.
  Corollary padded_both2 s v v' : Padded D1 s v -> Padded D2 s v' -> Padded D3 s v.
  Proof. intros H1 H2. now destruct (proj1 (proj2 texts_both2) s v H1 s v' [] [] H2) as (_ & _ & K). Qed.
End Both2.
