(** * JsonDepthFacts: how deeply the hand-written JSON reader recurses. *)
From Coq Require Import String ZArith.
From Verif Require Import JsonDepth SpecJsonDepth JsonRead.
From Coq Require Import List Lia.
Open Scope list_scope.

Lemma opens_app a b : opens (a ++ b) = opens a + opens b.
Proof. unfold opens. now rewrite filter_app, app_length. Qed.
Definition alive {A} (x : res A take_error * iw) : Prop := fst x <> OutOfFuel.
Lemma then_alive {A B} (x : res A take_error * iw) (f : A -> iw -> res B take_error * iw) : alive (then_ x f) -> alive x.
Proof. unfold alive, then_. destruct x as [[v | e | |] st]; cbn; intros H K; try discriminate. now apply H. Qed.
Lemma then_ok {A B} (v : A) st (f : A -> iw -> res B take_error * iw) : then_ (Ok v, st) f = f v st.
Proof. reflexivity. Qed.
Lemma then_same {A B} (x y : res A take_error * iw) (f g : A -> iw -> res B take_error * iw) : y = x -> (forall v st, x = (Ok v, st) -> g v st = f v st) -> then_ y g = then_ x f.
Proof. intros -> H. unfold then_. destruct x as [[v | e | |] st]; cbn; auto. Qed.

Section Nest.
  Context {num : Type}.
  Variables (checks : bool) (conv : rstr -> option num).

  Lemma str_loop_more : forall n m s st, n <= m -> alive (str_loop checks n s st) -> str_loop checks m s st = str_loop checks n s st.
  Proof.
    induction n as [| n IH]; intros m s st Hm Ha; [now elim Ha |]. destruct m as [| m]; [lia |]. cbn [str_loop] in *. destruct (iw_next st) as [[c |] st1]; [| reflexivity].
    destruct (N.eqb c 34); [reflexivity |]. destruct (is_plain c); [apply IH; [lia | exact Ha] |]. destruct (N.eqb c 92); [| reflexivity].
    apply then_same; [reflexivity |]. intros v st2 E. apply IH; [lia |]. intros K. apply Ha. rewrite E. unfold then_. cbn. exact K.
  Qed.
  Lemma parse_str_more n m st : n <= m -> alive (parse_str checks n st) -> parse_str checks m st = parse_str checks n st.
  Proof.
    intros Hm Ha. unfold parse_str in *. apply then_same; [reflexivity |]. intros v st1 E. apply str_loop_more; [exact Hm |]. intros K. apply Ha. rewrite E. unfold then_. cbn. exact K.
  Qed.
  Lemma number_run_more : forall n m s st, n <= m -> alive (number_run n s st) -> number_run m s st = number_run n s st.
  Proof.
    induction n as [| n IH]; intros m s st Hm Ha; [now elim Ha |]. destruct m as [| m]; [lia |]. cbn [number_run] in *. destruct (iw_peek st) as [[c |] st1]; [| reflexivity].
    destruct (is_number_char c); [apply IH; [lia | exact Ha] | reflexivity].
  Qed.

  (** Two item parsers that agree on the texts that can be left over. *)
  Section Collect.
    Context {A : Type}.
    Variables (item item' : iw -> res A take_error * iw) (sep stop : char) (sset first : list char).
    Variable R : rstr -> Prop.
    Hypothesis Rapp : forall w r, R (w ++ r) -> R r.
    Hypothesis Hitem : forall st, R (remaining st) -> alive (item st) -> item' st = item st /\ match fst (item st) with Ok _ => R (remaining (snd (item st))) | _ => True end.
    Lemma collect_agree : forall n m st, n <= m -> R (remaining st) -> alive (iter_collect item sep stop sset first n st) ->
      iter_collect item' sep stop sset first m st = iter_collect item sep stop sset first n st.
    Proof.
      induction n as [| n IH]; intros m st Hm HR Ha; [now elim Ha |]. destruct m as [| m]; [lia |]. cbn [iter_collect] in *. unfold iter_next in *.
      destruct (r_peek st) as (st1 & E1 & R1). rewrite E1 in *. destruct (hd_error (remaining st)) as [c |]; [| reflexivity]. destruct (N.eqb c stop); [reflexivity |].
      specialize (Hitem st1). rewrite R1 in Hitem. specialize (Hitem HR).
      destruct (item st1) as [y st2] eqn:Ey. assert (Hy : y <> OutOfFuel) by (intros ->; now apply Ha). destruct (Hitem Hy) as [-> Hs]. cbn [fst snd] in Hs.
      destruct y as [v | e | |]; [| | reflexivity ..].
      2: { destruct (iw_peek st2) as [[d |] st3]; [| reflexivity]. destruct (N.eqb d sep); [| now destruct (N.eqb d stop)]. cbv zeta. destruct (iw_peek (snd (iw_next st3))) as [[f |] st5]; [| reflexivity]. now destruct (mem_char f first). }
      rename Hs into HR2.
      destruct (r_peek st2) as (st3 & E3 & R3). rewrite E3 in *. destruct (hd_error (remaining st2)) as [d |] eqn:Ed; [| reflexivity].
      assert (K : forall st', R (remaining st') -> alive (let '(r, st2) := iter_collect item sep stop sset first n st' in (res_map (cons v) r, st2)) ->
        (let '(r, st2) := iter_collect item' sep stop sset first m st' in (res_map (cons v) r, st2)) = (let '(r, st2) := iter_collect item sep stop sset first n st' in (res_map (cons v) r, st2))).
      { intros st' HR' Ha'. rewrite (IH m st'); [reflexivity | lia | exact HR' |]. unfold alive in *. destruct (iter_collect item sep stop sset first n st') as [[l | e | |] st'']; cbn in *; congruence. }
      destruct (N.eqb d sep).
      - destruct (r_next st3) as (st4 & E4 & R4). rewrite E4 in *. cbn [snd] in *. destruct (r_peek st4) as (st5 & E5 & R5). rewrite E5 in *. cbn zeta in *.
        destruct (hd_error (remaining st4)) as [c3 |]; [| reflexivity]. destruct (mem_char c3 first); [| reflexivity]. apply K; [| exact Ha].
        rewrite R5, R4, R3. destruct (remaining st2) as [| x r]; [exact HR2 |]. exact (Rapp [x] r HR2).
      - destruct (N.eqb d stop); [| reflexivity]. apply K; [now rewrite R3 | exact Ha].
    Qed.
  End Collect.

  Definition ready (n N : nat) (r : rstr) : Prop := length r < n /\ valid_text r /\ opens r < N.
  Lemma ready_app n N w r : ready n N (w ++ r) -> ready n N r.
  Proof. intros (H1 & H2 & H3). rewrite app_length in H1. rewrite opens_app in H3. apply valid_app in H2. repeat split; auto; lia. Qed.

  Lemma then_consume {B} s st (f g : unit -> iw -> res B take_error * iw) : ascii_text s -> (forall st', remaining st = s ++ remaining st' -> g tt st' = f tt st') -> then_ (consume_str s st) g = then_ (consume_str s st) f.
  Proof.
    intros Hs H. destruct (r_consume s st Hs) as [(r' & st' & A & -> & C) | [_ (e & st' & ->)]]; unfold then_; cbn [fst snd]; [| reflexivity]. apply H. now rewrite C.
  Qed.
  Theorem nested_enough : forall n L N st, n <= L -> ready n N (remaining st) -> take_nested checks conv L N st = take_value checks conv n st.
  Proof.
    induction n as [| n IH]; intros L N st HL (H1 & H2 & H3); [lia |]. destruct N as [| N]; [lia |].
    pose proof (take_value_good checks conv (S n) st H1 H2) as Hg. assert (Ha : alive (take_value checks conv (S n) st)).
    { unfold alive. intros K. unfold good in Hg. rewrite K in Hg. exact Hg. } clear Hg.
    cbn [take_nested]. cbn [take_value] in Ha |- *. destruct (r_skip st) as (a & r & Rs & _ & _ & R0). destruct (r_peek (skip_ws st)) as (st1 & E1 & R1). rewrite E1 in *. rewrite R0 in *.
    apply then_alive in Ha. apply then_same; [| reflexivity]. rewrite Rs in H1, H2, H3. rewrite app_length in H1. rewrite opens_app in H3. apply valid_app in H2.
    destruct r as [| c r]; [reflexivity |]. cbn [hd_error] in *. cbn [length] in H1.
    destruct (N.eqb c (chr "n")); [reflexivity |]. destruct (N.eqb c (chr "t")); [reflexivity |]. destruct (N.eqb c (chr "f")); [reflexivity |]. destruct (in_range 48 57 c || N.eqb c (chr "-")).
    { apply then_same; [| reflexivity]. apply number_run_more; [lia |]. now apply then_alive in Ha. }
    destruct (N.eqb c 34). { apply then_same; [| reflexivity]. apply parse_str_more; [lia |]. now apply then_alive in Ha. }
    assert (Hv : forall st', ready n N (remaining st') -> alive (take_value checks conv n st') -> take_nested checks conv L N st' = take_value checks conv n st' /\ match fst (take_value checks conv n st') with Ok _ => ready n N (remaining (snd (take_value checks conv n st'))) | _ => True end).
    { intros st' Hr _. split; [apply IH; [lia | exact Hr] |]. pose proof Hr as (A1 & A2 & _). pose proof (take_value_good checks conv n st' A1 A2) as G. unfold good in G. destruct (fst (take_value checks conv n st')); auto. destruct G as (w & G & _). rewrite G in Hr. exact (ready_app _ _ _ _ Hr). }
    assert (Hm : forall st', ready n N (remaining st') -> alive (take_member checks (take_value checks conv n) n st') -> take_member checks (take_nested checks conv L N) L st' = take_member checks (take_value checks conv n) n st' /\ match fst (take_member checks (take_value checks conv n) n st') with Ok _ => ready n N (remaining (snd (take_member checks (take_value checks conv n) n st'))) | _ => True end).
    { intros st' Hr Hal. split.
      - unfold take_member in *. destruct (r_skip st') as (a1 & r1 & Q1 & _ & _ & Q2). apply then_same; [apply parse_str_more; [lia | now apply then_alive in Hal] |]. intros k st2 Ek.
        pose proof (parse_str_good checks conv n (skip_ws st')) as G. rewrite Q2 in G. rewrite Q1 in Hr. destruct Hr as (A1 & A2 & A3). rewrite app_length in A1. specialize (G ltac:(lia) (valid_app _ _ A2)). unfold good in G. rewrite Ek in G. cbn [fst snd] in G. destruct G as (q & Eq & _).
        destruct (r_skip st2) as (a2 & r2 & Q3 & _ & _ & Q4).
        apply then_consume; [repeat constructor |]. intros st4 Q5. apply then_same; [| reflexivity]. apply IH; [lia |]. apply (ready_app _ _ (lit ":")). rewrite <- Q5, Q4. apply (ready_app _ _ a2). rewrite <- Q3. apply (ready_app _ _ q). rewrite <- Eq. apply (ready_app _ _ a1). repeat split; auto. rewrite app_length. lia.
      - pose proof Hr as (A1 & A2 & _). pose proof (member_good checks conv n st' (fun st Hl Hv => take_value_good checks conv n st Hl Hv) A1 A2) as G. unfold good in G. destruct (fst (take_member checks (take_value checks conv n) n st')); auto. destruct G as (w & G & _). rewrite G in Hr. exact (ready_app _ _ _ _ Hr). }
    destruct (N.eqb_spec c (chr "[")) as [-> | _].
    { destruct (r_consume_ok (lit "[") st1 r) as (st2 & E2 & R2); [repeat constructor | exact R1 |]. rewrite E2 in Ha |- *. rewrite then_ok in Ha. rewrite !then_ok.
      assert (Hr : ready n N (remaining st2)). { rewrite R2. repeat split; [lia | now apply Forall_cons_iff in H2 |]. change (opens (chr "[" :: r)) with (S (opens r)) in H3. lia. }
      apply then_same; [| reflexivity]. apply (collect_agree _ _ _ _ _ _ (ready n N) (ready_app n N) Hv); [lia | exact Hr |]. now apply then_alive in Ha. }
    destruct (N.eqb_spec c (chr "{")) as [-> | _]; [| reflexivity].
    destruct (r_consume_ok (lit "{") st1 r) as (st2 & E2 & R2); [repeat constructor | exact R1 |]. rewrite E2 in Ha |- *. rewrite then_ok in Ha. rewrite !then_ok.
    assert (Hr : ready n N (remaining st2)). { rewrite R2. repeat split; [lia | now apply Forall_cons_iff in H2 |]. change (opens (chr "{" :: r)) with (S (opens r)) in H3. lia. }
    apply then_same; [| reflexivity]. apply (collect_agree _ _ _ _ _ _ (ready n N) (ready_app n N) Hm); [lia | exact Hr |]. now apply then_alive in Ha.
  Qed.

  (** ** The depth of what was read *)
  Lemma then_inv {A B} (x : res A take_error * iw) (f : A -> iw -> res B take_error * iw) v st : then_ x f = (Ok v, st) -> exists a st1, x = (Ok a, st1) /\ f a st1 = (Ok v, st).
  Proof. unfold then_. destruct x as [[a | e | |] st1]; cbn; intros H; try discriminate. eauto. Qed.
  Section CollectOk.
    Context {A : Type}.
    Variables (item item' : iw -> res A take_error * iw) (sep stop : char) (sset first : list char) (P Q : A -> Prop).
    Hypothesis Hitem : forall st v st', item st = (Ok v, st') -> P v /\ (Q v -> item' st = (Ok v, st')).
    Lemma collect_ok : forall m st l st', iter_collect item sep stop sset first m st = (Ok l, st') ->
      Forall P l /\ (Forall Q l -> iter_collect item' sep stop sset first m st = (Ok l, st')).
    Proof.
      induction m as [| m IH]; intros st l st' H; [discriminate |]. cbn [iter_collect] in *. unfold iter_next in *.
      destruct (iw_peek st) as [[c |] st1]; [| injection H as <- <-; auto]. destruct (N.eqb c stop); [injection H as <- <-; auto |].
      destruct (item st1) as [[v | e | |] st2] eqn:Ey; try discriminate.
      2: { exfalso. destruct (iw_peek st2) as [[d |] st3]; [| discriminate]. destruct (N.eqb d sep); [| now destruct (N.eqb d stop)]. cbv zeta in H. destruct (iw_peek (snd (iw_next st3))) as [[f |] st5]; [| discriminate]. now destruct (mem_char f first). }
      destruct (Hitem _ _ _ Ey) as [Pv Qv].
      assert (K : forall st'', (let '(r, st2) := iter_collect item sep stop sset first m st'' in (res_map (cons v) r, st2)) = (Ok l, st') ->
        Forall P l /\ (Forall Q l -> Q v /\ (let '(r, st2) := iter_collect item' sep stop sset first m st'' in (res_map (cons v) r, st2)) = (Ok l, st'))).
      { intros st'' E. destruct (iter_collect item sep stop sset first m st'') as [[l' | e | |] s''] eqn:Ei; try discriminate. cbn in E. injection E as <- <-. destruct (IH _ _ _ Ei) as [I1 I2]. split; [now constructor |].
        intros F. apply Forall_cons_iff in F as [F1 F2]. split; [exact F1 |]. now rewrite (I2 F2). }
      destruct (iw_peek st2) as [[d |] st3] eqn:E3; [| discriminate].
      destruct (N.eqb d sep) eqn:Es.
      - cbv zeta in *. destruct (iw_peek (snd (iw_next st3))) as [[f |] st5] eqn:E5; [| discriminate]. destruct (mem_char f first) eqn:Ef; [| discriminate]. destruct (K _ H) as [K1 K2]. split; [exact K1 |]. intros F. destruct (K2 F) as [F1 F2]. rewrite (Qv F1), E3, Es, E5, Ef. exact F2.
      - destruct (N.eqb d stop) eqn:Et; [| discriminate]. destruct (K _ H) as [K1 K2]. split; [exact K1 |]. intros F. destruct (K2 F) as [F1 F2]. rewrite (Qv F1), E3, Es, Et. exact F2.
    Qed.
  End CollectOk.

  Lemma max_le {A} (f : A -> nat) l n : fold_right Nat.max 0 (map f l) <= n <-> Forall (fun x => f x <= n) l.
  Proof. induction l as [| x l IH]; cbn; [split; [constructor | lia] |]. rewrite Forall_cons_iff, <- IH. lia. Qed.
  Lemma depth_pos (v : value num) : 1 <= value_depth v.
  Proof. destruct v; cbn [value_depth]; lia. Qed.

  Definition body (loops : nat) (sub : iw -> res (value num) take_error * iw) (p : option char) (st1 : iw) : res (value num) take_error * iw :=
        match p with
        | None => (Err (EndOfStream (iw_pos st1)), st1)
        | Some c =>
          if N.eqb c (chr "n") then then_ (consume_str (lit "null") st1) (fun _ st2 => (Ok JNull, st2))
          else if N.eqb c (chr "t") then then_ (consume_str (lit "true") st1) (fun _ st2 => (Ok (JBool true), st2))
          else if N.eqb c (chr "f") then then_ (consume_str (lit "false") st1) (fun _ st2 => (Ok (JBool false), st2))
          else if in_range 48 57 c || N.eqb c (chr "-") then
            then_ (number_run loops [c] (snd (iw_next st1))) (fun s st2 => or_panic (option_map JNumber (conv s)) st2)
          else if N.eqb c 34 then then_ (parse_str checks loops st1) (fun s st2 => (Ok (JString s), st2))
          else if N.eqb c (chr "[") then
            then_ (consume_str (lit "[") st1) (fun _ st2 =>
            then_ (iter_collect (sub) (chr ",") (chr "]") (lit ",]") FIRST_WS loops st2) (fun l st3 =>
            then_ (consume_str (lit "]") st3) (fun _ st4 => (Ok (JArray l), st4))))
          else if N.eqb c (chr "{") then
            then_ (consume_str (lit "{") st1) (fun _ st2 =>
            then_ (iter_collect (take_member checks (sub) loops) (chr ",") (chr "}") (lit ",}") ([34%N] ++ WS) loops st2) (fun l st3 =>
            then_ (consume_str (lit "}") st3) (fun _ st4 => (Ok (JObject l), st4))))
          else (Err (BadBranch (iw_pos st1) c FIRST), st1)
        end.
  Lemma nested_step L N st : take_nested checks conv L (S N) st = (let '(p, st1) := iw_peek (skip_ws st) in then_ (body L (take_nested checks conv L N) p st1) (fun v st2 => (Ok v, skip_ws st2))).
  Proof. reflexivity. Qed.
  Theorem nested_depth : forall L N st v st', take_nested checks conv L N st = (Ok v, st') -> value_depth v <= N /\ (forall N', value_depth v <= N' -> take_nested checks conv L N' st = (Ok v, st')).
  Proof.
    intros L. induction N as [| N IH]; intros st v st' H; [discriminate |]. rewrite nested_step in H. destruct (iw_peek (skip_ws st)) as [p st1] eqn:Ep.
    apply then_inv in H as (v0 & st2 & H & E0). injection E0 as <- <-.
    assert (Q : value_depth v0 <= S N /\ (forall N', value_depth v0 <= S N' -> body L (take_nested checks conv L N') p st1 = (Ok v0, st2))).
    2: { destruct Q as [B C]. split; [exact B |]. intros [| N'] Hn; [pose proof (depth_pos v0); lia |]. now rewrite nested_step, Ep, C. }
    unfold body in *.
    destruct p as [c |]; [| discriminate].
    assert (T : forall out : res (value num) take_error * iw, out = (Ok v0, st2) -> value_depth v0 = 1 -> value_depth v0 <= S N /\ (forall N', value_depth v0 <= S N' -> out = (Ok v0, st2))) by (intros out E1 E2; split; [lia | auto]).
    destruct (N.eqb c (chr "n")); [apply T; [exact H |]; apply then_inv in H as (? & ? & _ & H); now injection H as <- _ |].
    destruct (N.eqb c (chr "t")); [apply T; [exact H |]; apply then_inv in H as (? & ? & _ & H); now injection H as <- _ |].
    destruct (N.eqb c (chr "f")); [apply T; [exact H |]; apply then_inv in H as (? & ? & _ & H); now injection H as <- _ |].
    destruct (in_range 48 57 c || N.eqb c (chr "-")). { apply T; [exact H |]. apply then_inv in H as (s & ? & _ & H). unfold or_panic in H. destruct (conv s); [| discriminate]. now injection H as <- _. }
    destruct (N.eqb c 34); [apply T; [exact H |]; apply then_inv in H as (? & ? & _ & H); now injection H as <- _ |]. clear T.
    destruct (N.eqb c (chr "[")).
    { apply then_inv in H as (u & st3 & E3 & H). apply then_inv in H as (l & st4 & E4 & H). apply then_inv in H as (u' & st5 & E5 & H). injection H as <- <-. cbn [value_depth].
      pose proof (fun item' Q Hi => collect_ok (take_nested checks conv L N) item' (chr ",") (chr "]") (lit ",]") FIRST_WS (fun v => value_depth v <= N) Q Hi _ _ _ _ E4) as C. split.
      - destruct (C (take_nested checks conv L N) (fun _ => True)) as [F _]; [intros s v s' Hv; split; [now apply IH in Hv | auto] |]. apply max_le in F. lia.
      - intros N' Hn. destruct (C (take_nested checks conv L N') (fun v => value_depth v <= N')) as [_ F]; [intros s v s' Hv; apply IH in Hv as [Hv1 Hv2]; auto |]. rewrite E3, then_ok, F; [| apply max_le; lia]. now rewrite then_ok, E5. }
    destruct (N.eqb c (chr "{")); [| discriminate].
    apply then_inv in H as (u & st3 & E3 & H). apply then_inv in H as (l & st4 & E4 & H). apply then_inv in H as (u' & st5 & E5 & H). injection H as <- <-. cbn [value_depth].
    pose proof (fun item' Q Hi => collect_ok (take_member checks (take_nested checks conv L N) L) item' (chr ",") (chr "}") (lit ",}") ([34%N] ++ WS) (fun kv => value_depth (snd kv) <= N) Q Hi _ _ _ _ E4) as C.
    assert (M : forall s kv s', take_member checks (take_nested checks conv L N) L s = (Ok kv, s') -> value_depth (snd kv) <= N /\ forall N', value_depth (snd kv) <= N' -> take_member checks (take_nested checks conv L N') L s = (Ok kv, s')).
    { intros s kv s' Hv. unfold take_member in *. apply then_inv in Hv as (k & s1 & F1 & Hv). apply then_inv in Hv as (u1 & s2 & F2 & Hv). apply then_inv in Hv as (w & s3 & F3 & Hv). injection Hv as <- <-. apply IH in F3 as [G1 G2]. cbn [snd]. split; [exact G1 |]. intros N' Hn. rewrite F1, then_ok, F2, then_ok, (G2 _ Hn). reflexivity. }
    split.
    - destruct (C (take_member checks (take_nested checks conv L N) L) (fun _ => True)) as [F _]; [intros s kv s' Hv; split; [now apply M in Hv | auto] |]. apply max_le in F. lia.
    - intros N' Hn. destruct (C (take_member checks (take_nested checks conv L N') L) (fun kv => value_depth (snd kv) <= N')) as [_ F]; [intros s kv s' Hv; apply M in Hv as [Hv1 Hv2]; auto |]. rewrite E3, then_ok, F; [| apply max_le; lia]. now rewrite then_ok, E5.
  Qed.
  (** More nesting allowed changes nothing once it is enough. *)
  Lemma collect_mono {A} (item item' : iw -> res A take_error * iw) sep stop sset first m st : (forall st, alive (item st) -> item' st = item st) -> alive (iter_collect item sep stop sset first m st) ->
    iter_collect item' sep stop sset first m st = iter_collect item sep stop sset first m st.
  Proof.
    intros Hi Ha. apply (collect_agree item item' sep stop sset first (fun _ => True)); auto. intros st' _ K. split; [now apply Hi |]. now destruct (fst (item st')).
  Qed.
  Theorem nested_mono : forall L N N' st, N <= N' -> alive (take_nested checks conv L N st) -> take_nested checks conv L N' st = take_nested checks conv L N st.
  Proof.
    intros L. induction N as [| N IH]; intros N' st Hn Ha; [now elim Ha |]. destruct N' as [| N']; [lia |]. apply le_S_n in Hn. specialize (IH N').
    rewrite nested_step in Ha. rewrite !nested_step. destruct (iw_peek (skip_ws st)) as [p st1]. apply then_alive in Ha. apply then_same; [| reflexivity]. unfold body in *. destruct p as [c |]; [| reflexivity].
    destruct (N.eqb c (chr "n")); [reflexivity |]. destruct (N.eqb c (chr "t")); [reflexivity |]. destruct (N.eqb c (chr "f")); [reflexivity |]. destruct (in_range 48 57 c || N.eqb c (chr "-")); [reflexivity |]. destruct (N.eqb c 34); [reflexivity |].
    assert (K : forall A (x : res A take_error * iw) v st', x = (Ok v, st') -> forall (f : A -> iw -> res (value num) take_error * iw), alive (then_ x f) -> alive (f v st')) by (intros A x v st' -> f K; exact K).
    destruct (N.eqb c (chr "[")).
    { apply then_same; [reflexivity |]. intros u st2 E. apply (K _ _ _ _ E) in Ha. apply then_alive in Ha. apply then_same; [| reflexivity]. apply collect_mono; [| exact Ha]. intros s Hs. now apply IH. }
    destruct (N.eqb c (chr "{")); [| reflexivity].
    apply then_same; [reflexivity |]. intros u st2 E. apply (K _ _ _ _ E) in Ha. apply then_alive in Ha. apply then_same; [| reflexivity]. apply collect_mono; [| exact Ha]. intros s Hs.
    unfold take_member in *. apply then_same; [reflexivity |]. intros k s1 E1. unfold then_ in Hs at 1. rewrite E1 in Hs. cbn [fst snd] in Hs. apply then_same; [reflexivity |]. intros u' s2 E2. rewrite E2 in Hs. rewrite then_ok in Hs. apply then_alive in Hs. apply then_same; [| reflexivity]. now apply IH.
  Qed.
End Nest.
