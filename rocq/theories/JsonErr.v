(** * JsonErr: errors of the hand-written JSON reader (1): positions. *)
From Coq Require Import String ZArith.
From Verif Require Export SpecJsonError JsonRead.
From Coq Require Import List Lia.
Import ListNotations.
Open Scope list_scope.

(** ** Every step keeps the position in step with the text *)
Definition kept {A} (x : res A take_error * iw) (s : rstr) : Prop :=
  match fst x with Ok _ => exists u, s = u ++ remaining (snd x) /\ at_cursor u (remaining (snd x)) (snd x) | _ => True end.
Lemma cursor_eq u r u' st : at_cursor u r st -> at_cursor u' r st -> spec_pos u (hd_error r) = spec_pos u' (hd_error r).
Proof. intros [_ H] [_ H']. congruence. Qed.
Lemma kept_ok {A} (v : A) u st s : s = u ++ remaining st -> at_cursor u (remaining st) st -> kept (Ok v, st) s.
Proof. intros H1 H2. exists u. auto. Qed.
Lemma at_remaining u r st : at_cursor u r st -> at_cursor u (remaining st) st.
Proof. intros H. destruct H as [H1 H2]. split; [reflexivity | now rewrite H1]. Qed.
Lemma then_kept {A B} (x : res A take_error * iw) (f : A -> iw -> res B take_error * iw) s :
  kept x s -> (forall v u st, s = u ++ remaining st -> at_cursor u (remaining st) st -> kept (f v st) s) -> kept (then_ x f) s.
Proof. unfold kept at 1, then_. destruct (fst x) as [v | | |] eqn:E; try (intros _ _; exact Logic.I). intros (u & H1 & H2) H. eapply H; eauto. Qed.
Lemma peek_kept u st : at_cursor u (remaining st) st -> at_cursor u (remaining (snd (iw_peek st))) (snd (iw_peek st)) /\ remaining (snd (iw_peek st)) = remaining st.
Proof. intros H. destruct (peek_at _ _ _ H) as [_ P]. split; [now apply at_remaining in P | apply P]. Qed.
Lemma next_kept u st c : at_cursor u (remaining st) st -> hd_error (remaining st) = Some c -> at_cursor (u ++ [c]) (remaining (snd (iw_next st))) (snd (iw_next st)) /\ remaining st = c :: remaining (snd (iw_next st)).
Proof. intros H E. destruct (remaining st) as [| d r] eqn:R; [discriminate E |]. injection E as ->. destruct (next_at _ _ _ _ H) as [_ P]. split; [now apply at_remaining in P | now rewrite (proj1 P)]. Qed.
Lemma skip_kept u st : at_cursor u (remaining st) st -> exists a, ws a /\ at_cursor (u ++ a) (remaining (skip_ws st)) (skip_ws st) /\ remaining st = a ++ remaining (skip_ws st) /\ stop_at is_ws (remaining (skip_ws st)).
Proof.
  intros H. destruct (skip_while_spec (fun c => mem_char c WS) _ _ _ H) as (st' & r' & E & R & A). destruct (r_skip st) as (a & r2 & R2 & Ha & Hs & R3). exists a.
  assert (Ra : remaining (skip_ws st) = r') by (unfold skip_ws; rewrite E; apply A). assert (a = prefix_while (fun c => mem_char c WS) (remaining st)).
  { assert (Er : r2 = r') by congruence. rewrite R2 in R at 1. rewrite Er in R. now apply app_inv_tail in R. }
  split; [exact Ha |]. split; [| now rewrite R3]. unfold skip_ws. rewrite E. subst a. now apply at_remaining in A.
Qed.
Lemma consume_kept t u st s : s = u ++ remaining st -> at_cursor u (remaining st) st -> kept (consume_str t st) s.
Proof.
  intros -> H. destruct (consume_loop_spec t t 0 _ _ _ H) as (r' & Hr & P). unfold consume_str. destruct (consume_loop t t 0 st) as [x st']. destruct P as [P _]. unfold kept. cbn [fst snd]. destruct x; auto.
  exists (u ++ lcp t (remaining st)). split; [| now apply at_remaining in P]. rewrite (proj1 P), <- app_assoc. now rewrite <- Hr.
Qed.
Lemma hex_kept n : forall u st s, s = u ++ remaining st -> at_cursor u (remaining st) st -> kept (take_chars_from HEX n st) s.
Proof.
  intros u st s -> H. pose proof (take_chars_spec HEX n _ _ _ H) as P. cbv zeta in P. destruct (take_chars_from HEX n st) as [x st']. unfold kept. cbn [fst snd]. destruct x; auto.
  destruct (Nat.eqb _ _).
  - destruct P as (_ & r' & Hr & P). eexists. split; [| apply at_remaining in P; exact P]. rewrite (proj1 P), <- app_assoc. now rewrite <- Hr.
  - destruct (skipn _ _); destruct P as [[=] _].
Qed.
Section Kept.
  Variable checks : bool.
  Context {num : Type}.
  Variable conv : rstr -> option num.
  Lemma u16_kept u st s : s = u ++ remaining st -> at_cursor u (remaining st) st -> kept (parse_u16 checks st) s.
  Proof. intros E H. unfold parse_u16. apply then_kept; [now apply (hex_kept 4 u) |]. intros v u' st' E' H'. unfold or_panic. destruct (fold_left _ _ _); [now apply (kept_ok _ u') | exact Logic.I]. Qed.
  Lemma or_panic_kept {A} (x : option A) u st s : s = u ++ remaining st -> at_cursor u (remaining st) st -> kept (or_panic x st) s.
  Proof. intros E H. unfold or_panic. destruct x; [now apply (kept_ok _ u) | exact Logic.I]. Qed.
  Lemma escape_kept u st s : s = u ++ remaining st -> at_cursor u (remaining st) st -> kept (parse_escape checks st) s.
  Proof.
    intros E H. unfold parse_escape. destruct (iw_next st) as [x st1] eqn:En. pose proof (r_next st) as (st1' & En' & _). rewrite En in En'. injection En' as -> <-. destruct (hd_error (remaining st)) as [c |] eqn:Hc; [| exact Logic.I].
    destruct (next_kept _ _ _ H Hc) as [H1 R1]. rewrite En in H1, R1. cbn [snd] in H1, R1. assert (E1 : s = (u ++ [c]) ++ remaining st1) by (rewrite <- app_assoc; cbn [app]; now rewrite <- R1).
    repeat match goal with |- context [N.eqb c ?d] => destruct (N.eqb c d); [try now apply (kept_ok _ (u ++ [c])) |] end; [| exact Logic.I].
    apply then_kept; [now apply (u16_kept (u ++ [c])) |]. intros v u2 st2 E2 H2. apply then_kept.
    - destruct (in_range 55296 57343 v); [| now apply (kept_ok _ u2)]. apply then_kept; [now apply (consume_kept _ u2) |]. intros _ u3 st3 E3 H3. apply then_kept; [now apply (u16_kept u3) |]. intros o u4 st4 E4 H4. now apply (or_panic_kept _ u4).
    - intros cp u5 st5 E5 H5. now apply (or_panic_kept _ u5).
  Qed.
  Lemma str_loop_kept : forall fuel x u st s, s = u ++ remaining st -> at_cursor u (remaining st) st -> kept (str_loop checks fuel x st) s.
  Proof.
    induction fuel as [| n IH]; intros x u st s E H; [exact Logic.I |]. cbn [str_loop]. destruct (iw_next st) as [y st1] eqn:En. pose proof (r_next st) as (st1' & En' & _). rewrite En in En'. injection En' as -> <-. destruct (hd_error (remaining st)) as [c |] eqn:Hc; [| exact Logic.I].
    destruct (next_kept _ _ _ H Hc) as [H1 R1]. rewrite En in H1, R1. cbn [snd] in H1, R1. assert (E1 : s = (u ++ [c]) ++ remaining st1) by (rewrite <- app_assoc; cbn [app]; now rewrite <- R1).
    destruct (N.eqb c 34); [now apply (kept_ok _ (u ++ [c])) |]. destruct (is_plain c); [now apply (IH _ (u ++ [c])) |]. destruct (N.eqb c 92); [| exact Logic.I].
    apply then_kept; [now apply (escape_kept (u ++ [c])) |]. intros v u2 st2 E2 H2. now apply (IH _ u2).
  Qed.
  Lemma parse_str_kept fuel u st s : s = u ++ remaining st -> at_cursor u (remaining st) st -> kept (parse_str checks fuel st) s.
  Proof. intros E H. unfold parse_str. apply then_kept; [now apply (consume_kept _ u) |]. intros _ u1 st1 E1 H1. now apply (str_loop_kept _ _ u1). Qed.
  Lemma number_kept : forall fuel x u st s, s = u ++ remaining st -> at_cursor u (remaining st) st -> kept (number_run fuel x st) s.
  Proof.
    induction fuel as [| n IH]; intros x u st s E H; [exact Logic.I |]. cbn [number_run]. destruct (peek_kept _ _ H) as [H1 R1]. destruct (peek_spec st) as (P1 & _). destruct (iw_peek st) as [p st1]. cbn [fst snd] in *. subst p. rewrite <- R1 in E.
    destruct (hd_error (remaining st)) as [c |] eqn:Hc; [| now apply (kept_ok _ u)]. rewrite <- R1 in Hc. destruct (is_number_char c); [| now apply (kept_ok _ u)].
    destruct (next_kept _ _ _ H1 Hc) as [H2 R2]. apply (IH _ (u ++ [c])); [| exact H2]. rewrite <- app_assoc. cbn [app]. now rewrite <- R2.
  Qed.
  Lemma skip_at u st s : s = u ++ remaining st -> at_cursor u (remaining st) st -> exists u', s = u' ++ remaining (skip_ws st) /\ at_cursor u' (remaining (skip_ws st)) (skip_ws st).
  Proof. intros E H. destruct (skip_kept _ _ H) as (a & _ & H1 & R1 & _). exists (u ++ a). split; [| exact H1]. rewrite <- app_assoc. now rewrite <- R1. Qed.
  Lemma collect_kept {A} (item : iw -> res A take_error * iw) sep stop sset first s : (forall u st, s = u ++ remaining st -> at_cursor u (remaining st) st -> kept (item st) s) ->
    forall fuel u st, s = u ++ remaining st -> at_cursor u (remaining st) st -> kept (iter_collect item sep stop sset first fuel st) s.
  Proof.
    intros Hi. induction fuel as [| n IH]; intros u st E H; [exact Logic.I |]. cbn [iter_collect]. unfold iter_next.
    destruct (peek_kept _ _ H) as [H1 R1]. destruct (peek_spec st) as (P1 & _). destruct (iw_peek st) as [p st1]. cbn [fst snd] in *. subst p. rewrite <- R1 in E.
    destruct (hd_error (remaining st)) as [c |] eqn:Hc; [| now apply (kept_ok _ u)]. destruct (N.eqb c stop); [now apply (kept_ok _ u) |].
    specialize (Hi u st1 E H1). destruct (item st1) as [x st2]. unfold kept in Hi. cbn [fst snd] in Hi.
    assert (K : forall y st', (exists u', s = u' ++ remaining st' /\ at_cursor u' (remaining st') st') -> kept (match y with Some (Ok v) => let '(r, st2) := iter_collect item sep stop sset first n st' in (res_map (cons v) r, st2) | Some (Err e) => (Err e, st') | Some Panic => (Panic, st') | Some OutOfFuel => (OutOfFuel, st') | None => (Ok [], st') end) s).
    { intros y st' (u' & E' & H'). destruct y as [[v | e | |] |]; try exact Logic.I; [| now apply (kept_ok _ u')]. specialize (IH u' st' E' H'). destruct (iter_collect item sep stop sset first n st') as [z st'']. unfold kept in *. cbn [fst snd] in *. destruct z; cbn [res_map]; auto. }
    destruct x as [v | e | |]; try exact Logic.I.
    - destruct Hi as (u2 & E2 & H2). destruct (peek_kept _ _ H2) as [H3 R3]. destruct (peek_spec st2) as (P3 & _). destruct (iw_peek st2) as [p3 st3]. cbn [fst snd] in *. subst p3. rewrite <- R3 in E2.
      destruct (hd_error (remaining st2)) as [d |] eqn:Hd; [| exact Logic.I]. rewrite <- R3 in Hd. destruct (N.eqb d sep).
      + destruct (next_kept _ _ _ H3 Hd) as [H4 R4]. destruct (peek_kept _ _ H4) as [H5 R5]. cbv zeta. destruct (iw_peek (snd (iw_next st3))) as [[f |] st5]; [| exact Logic.I]. cbn [fst snd] in *. destruct (mem_char f first); [| exact Logic.I].
        apply (K (Some (Ok v))). exists (u2 ++ [d]). split; [| exact H5]. rewrite R5, <- app_assoc. cbn [app]. now rewrite <- R4.
      + destruct (N.eqb d stop); [| exact Logic.I]. apply (K (Some (Ok v))). eauto.
    - destruct (iw_peek st2) as [[d |] st3]; [| exact Logic.I]. destruct (N.eqb d sep); [| now destruct (N.eqb d stop)]. cbv zeta. destruct (iw_peek (snd (iw_next st3))) as [[f |] st5]; [| exact Logic.I]. now destruct (mem_char f first).
  Qed.
  Lemma take_value_kept : forall n u st s, s = u ++ remaining st -> at_cursor u (remaining st) st -> kept (take_value checks conv n st) s.
  Proof.
    induction n as [| n IH]; intros u st s E H; [exact Logic.I |]. cbn [take_value]. destruct (skip_at u st s E H) as (u0 & E0 & H0).
    destruct (peek_kept _ _ H0) as [H1 R1]. destruct (peek_spec (skip_ws st)) as (P1 & _). destruct (iw_peek (skip_ws st)) as [p st1]. cbn [fst snd] in *. subst p. rewrite <- R1 in E0.
    destruct (hd_error (remaining (skip_ws st))) as [c |] eqn:Hc; [| exact Logic.I]. rewrite <- R1 in Hc.
    apply then_kept; [| intros v u2 st2 E2 H2; destruct (skip_at u2 st2 s E2 H2) as (u3 & E3 & H3); now apply (kept_ok _ u3)].
    assert (K : forall t (v : value num), kept (then_ (consume_str t st1) (fun _ st2 => (Ok v, st2))) s). { intros t v. apply then_kept; [now apply (consume_kept _ u0) |]. intros _ u2 st2 E2 H2. now apply (kept_ok _ u2). }
    assert (B : forall A (item : iw -> res A take_error * iw) o cl sset first (mk : list A -> value num), (forall u st, s = u ++ remaining st -> at_cursor u (remaining st) st -> kept (item st) s) ->
      kept (then_ (consume_str o st1) (fun _ st2 => then_ (iter_collect item (chr ",") cl sset first n st2) (fun l st3 => then_ (consume_str [cl] st3) (fun _ st4 => (Ok (mk l), st4))))) s).
    { intros A item o cl sset first mk Hi. apply then_kept; [now apply (consume_kept _ u0) |]. intros _ u2 st2 E2 H2. apply then_kept; [now apply (collect_kept item _ _ _ _ s Hi n u2) |]. intros l u3 st3 E3 H3. apply then_kept; [now apply (consume_kept _ u3) |]. intros _ u4 st4 E4 H4. now apply (kept_ok _ u4). }
    destruct (N.eqb c (chr "n")); [apply K |]. destruct (N.eqb c (chr "t")); [apply K |]. destruct (N.eqb c (chr "f")); [apply K |]. destruct (in_range 48 57 c || N.eqb c (chr "-")).
    { destruct (next_kept _ _ _ H1 Hc) as [H2 R2]. apply then_kept; [apply (number_kept _ _ (u0 ++ [c])); [| exact H2]; rewrite <- app_assoc; cbn [app]; now rewrite <- R2 |]. intros v u3 st3 E3 H3. now apply (or_panic_kept _ u3). }
    destruct (N.eqb c 34). { apply then_kept; [now apply (parse_str_kept _ u0) |]. intros v u3 st3 E3 H3. now apply (kept_ok _ u3). }
    destruct (N.eqb c (chr "[")); [apply (B (value num) _ (lit "[") (chr "]") (lit ",]") FIRST_WS JArray); intros u2 st2; apply IH |].
    destruct (N.eqb c (chr "{")); [| exact Logic.I]. apply (B (rstr * value num)%type _ (lit "{") (chr "}") (lit ",}") ([34%N] ++ WS) JObject). intros u2 st2 E2 H2. unfold take_member. destruct (skip_at u2 st2 s E2 H2) as (u3 & E3 & H3).
    apply then_kept; [now apply (parse_str_kept _ u3) |]. intros k u4 st4 E4 H4. destruct (skip_at u4 st4 s E4 H4) as (u5 & E5 & H5). apply then_kept; [now apply (consume_kept _ u5) |]. intros _ u6 st6 E6 H6. apply then_kept; [now apply (IH u6) |]. intros v u7 st7 E7 H7. now apply (kept_ok _ u7).
  Qed.
End Kept.
