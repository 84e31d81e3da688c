(** * JsonFacts: the hand-written JSON reader accepts exactly its dialect. *)
From Coq Require Import String ZArith.
From Verif Require Export Json RuntimeFacts.
From Coq Require Import List Lia.
Open Scope list_scope.

(** ** Steps of the runtime, in terms of what remains *)
Lemma r_peek st : exists st1, iw_peek st = (hd_error (remaining st), st1) /\ remaining st1 = remaining st.
Proof. destruct (peek_spec st) as (P1 & P2 & _). destruct (iw_peek st) as [p st1]. cbn [fst snd] in *. subst p. eauto. Qed.
Lemma r_next st : exists st1, iw_next st = (hd_error (remaining st), st1) /\ remaining st1 = tl (remaining st).
Proof. destruct (next_spec st) as (P1 & P2). destruct (iw_next st) as [p st1]. cbn [fst snd] in *. subst p. eauto. Qed.
Definition ascii_text (s : rstr) : Prop := Forall (fun c => (c < 128)%N) s.
Lemma r_consume_loop s : ascii_text s -> forall cs count st, count + length cs <= length s ->
  (exists r' st', remaining st = cs ++ r' /\ consume_loop s cs count st = (Ok tt, st') /\ remaining st' = r') \/
  ((forall r', remaining st <> cs ++ r') /\ exists e st', consume_loop s cs count st = (Err e, st')).
Proof.
  intros Hs. induction cs as [| e cs IH]; intros count st Hc; cbn [consume_loop].
  - left. exists (remaining st), st. auto.
  - destruct (r_peek st) as (st1 & -> & R1). destruct (remaining st) as [| d r] eqn:R; cbn [hd_error].
    + right. split; [discriminate | eauto].
    + cbn [length] in Hc. destruct (N.eqb_spec d e) as [-> | Hn].
      * destruct (r_next st1) as (st2 & E2 & R2). rewrite E2. cbn [snd]. rewrite R1 in R2. cbn [tl] in R2.
        destruct (IH (S count) st2) as [(r' & st' & A & B & C) | [A B]]; [lia | left | right].
        -- exists r', st'. split; [cbn [app]; congruence | auto].
        -- split; [| exact B]. intros r' E. injection E as E. apply (A r'). congruence.
      * right. split; [intros r' E; injection E as E; congruence |].
        rewrite byte_prefix_ascii; [eauto | lia |]. apply Forall_forall. intros x Hx. apply (proj1 (Forall_forall _ _) Hs).
        clear -Hx. revert Hx. generalize count. induction s as [| y s IH]; intros [| n] Hx; cbn in *; try contradiction. destruct Hx as [-> | Hx]; [auto |]. right. eauto.
Qed.
Lemma r_consume s st : ascii_text s ->
  (exists r' st', remaining st = s ++ r' /\ consume_str s st = (Ok tt, st') /\ remaining st' = r') \/
  ((forall r', remaining st <> s ++ r') /\ exists e st', consume_str s st = (Err e, st')).
Proof. intros H. apply r_consume_loop; [exact H | cbn; lia]. Qed.
Lemma r_consume_ok s st r : ascii_text s -> remaining st = s ++ r -> exists st', consume_str s st = (Ok tt, st') /\ remaining st' = r.
Proof.
  intros Hs H. destruct (r_consume s st Hs) as [(r' & st' & A & B & C) | [A _]]; [| now elim (A r)].
  rewrite H in A. apply app_inv_head in A. subst. eauto.
Qed.

Definition is_ws (c : char) : bool := mem_char c WS.
Lemma is_ws_iff c : is_ws c = true <-> In c [32; 9; 10; 13]%N.
Proof. apply mem_char_In. Qed.
Definition stop_at (f : char -> bool) (r : rstr) : Prop := forall c, hd_error r = Some c -> f c = false.
Lemma stop_nil f : stop_at f [].
Proof. intros c. discriminate. Qed.
Lemma stop_cons f c r : f c = false -> stop_at f (c :: r).
Proof. intros H d [= <-]. exact H. Qed.
Lemma r_skip_loop f : forall fuel st, length (remaining st) < fuel ->
  exists a r' st', skip_while_loop fuel f st = Some st' /\ remaining st = a ++ r' /\ Forall (fun c => f c = true) a /\ stop_at f r' /\ remaining st' = r'.
Proof.
  induction fuel as [| n IH]; intros st Hf; [lia |]. cbn [skip_while_loop]. destruct (r_peek st) as (st1 & -> & R1).
  destruct (remaining st) as [| c r] eqn:R; cbn [hd_error].
  - exists [], [], st1. repeat split; auto using stop_nil.
  - destruct (f c) eqn:E.
    + destruct (r_next st1) as (st2 & E2 & R2). rewrite E2. cbn [snd]. rewrite R1 in R2. cbn [tl] in R2. cbn [length] in Hf.
      destruct (IH st2) as (a & r' & st' & A & B & C & F & G); [rewrite R2; lia |]. exists (c :: a), r', st'. rewrite <- R2, B. repeat split; auto.
    + exists [], (c :: r), st1. repeat split; auto using stop_cons.
Qed.
Lemma span_exact (f : char -> bool) a r a' r' : a ++ r = a' ++ r' -> Forall (fun c => f c = true) a -> stop_at f r -> Forall (fun c => f c = true) a' -> stop_at f r' -> a = a' /\ r = r'.
Proof.
  revert a'. induction a as [| c a IH]; intros [| c' a'] E Ha Hr Ha' Hr'.
  - auto.
  - cbn in E. subst r. apply Forall_cons_iff in Ha' as [H _]. rewrite (Hr c' eq_refl) in H. discriminate.
  - cbn in E. subst r'. apply Forall_cons_iff in Ha as [H _]. rewrite (Hr' c eq_refl) in H. discriminate.
  - injection E as <- E. apply Forall_cons_iff in Ha as [_ Ha]. apply Forall_cons_iff in Ha' as [_ Ha']. destruct (IH a' E Ha Hr Ha' Hr') as [-> ->]. auto.
Qed.
Lemma ws_forall a : ws a <-> Forall (fun c => is_ws c = true) a.
Proof. unfold ws. split; intros H; eapply Forall_impl; try exact H; intros c; apply is_ws_iff. Qed.
Lemma r_skip st : exists a r', remaining st = a ++ r' /\ ws a /\ stop_at is_ws r' /\ remaining (skip_ws st) = r'.
Proof.
  unfold skip_ws, skip_while. destruct (r_skip_loop is_ws (2 + length (irest st)) st) as (a & r' & st' & A & B & C & F & G).
  - pose proof (remaining_length st). lia.
  - change (fun c : N => mem_char c WS) with is_ws. rewrite A. exists a, r'. rewrite ws_forall. auto.
Qed.
Lemma r_skip_ok st a r : remaining st = a ++ r -> ws a -> stop_at is_ws r -> remaining (skip_ws st) = r.
Proof.
  intros H Ha Hr. destruct (r_skip st) as (a' & r' & A & B & C & F). rewrite F. rewrite ws_forall in *. rewrite H in A.
  symmetry. eapply (span_exact is_ws); eassumption.
Qed.
Lemma r_take_chars set : forall n st,
  (exists w r' st', length w = n /\ remaining st = w ++ r' /\ Forall (fun c => In c set) w /\ take_chars_from set n st = (Ok w, st') /\ remaining st' = r') \/
  ((forall w r', length w = n -> Forall (fun c => In c set) w -> remaining st <> w ++ r') /\ exists e st', take_chars_from set n st = (Err e, st')).
Proof.
  induction n as [| n IH]; intros st; cbn [take_chars_from].
  - left. exists [], (remaining st), st. auto.
  - destruct (r_next st) as (st1 & -> & R1). destruct (remaining st) as [| c r] eqn:R; cbn [hd_error].
    + right. split; [| eauto]. intros [| d w] r' Hl Hw; discriminate.
    + cbn [tl] in R1. destruct (mem_char c set) eqn:E.
      * destruct (IH st1) as [(w & r' & st' & A & B & C & F & G) | [A (e & st' & F)]]; rewrite F.
        -- left. exists (c :: w), r', st'. cbn [length app res_map]. rewrite <- R1, B. apply mem_char_In in E. repeat split; auto.
        -- right. split; [| cbn [res_map]; eauto]. intros [| d w] r' Hl Hw Eq; [discriminate |]. injection Eq as <- Eq. apply Forall_cons_iff in Hw as [_ Hw].
           injection Hl as Hl. apply (A w r' Hl Hw). congruence.
      * right. split; [| eauto]. intros [| d w] r' Hl Hw Eq; [discriminate |]. injection Eq as <- Eq. apply Forall_cons_iff in Hw as [Hw _].
        apply mem_char_In in Hw. congruence.
Qed.

(** ** Outcomes *)
Definition good {A} (L : rstr -> A -> Prop) (doom : rstr -> Prop) (x : res A take_error * iw) (r : rstr) : Prop :=
  match fst x with
  | Ok v => exists w, r = w ++ remaining (snd x) /\ L w v
  | Err _ => True
  | Panic => doom r
  | OutOfFuel => False
  end.
Definition yields {A} (x : res A take_error * iw) (v : A) (r : rstr) : Prop := exists st', x = (Ok v, st') /\ remaining st' = r.
Lemma then_yields {A B} (x : res A take_error * iw) v (f : A -> iw -> res B take_error * iw) r v' r' :
  yields x v r -> (forall st', remaining st' = r -> yields (f v st') v' r') -> yields (then_ x f) v' r'.
Proof. intros (st' & -> & R) H. unfold then_. cbn [fst snd]. apply H, R. Qed.
Lemma then_yields_panic {A B} (x : res A take_error * iw) v (f : A -> iw -> res B take_error * iw) r :
  yields x v r -> (forall st', remaining st' = r -> fst (f v st') = Panic) -> fst (then_ x f) = Panic.
Proof. intros (st' & -> & R) H. unfold then_. cbn [fst snd]. apply H, R. Qed.
Lemma then_panics {A B} (x : res A take_error * iw) (f : A -> iw -> res B take_error * iw) : fst x = Panic -> fst (then_ x f) = Panic.
Proof. unfold then_. now intros ->. Qed.

(** Lists with separators. *)
Section Loop.
  Context {A : Type}.
  Variable item : iw -> res A take_error * iw.
  Variables (sep stop : char) (sset first : list char).
  Variable P : rstr -> A -> Prop.
  Variable Q : rstr -> Prop.
  Inductive SepBy : rstr -> list A -> Prop :=
  | sepby_one w v : P w v -> SepBy w [v]
  | sepby_more w v w' l : P w v -> SepBy w' l -> SepBy (w ++ [sep] ++ w') (v :: l).
  Variable b : nat.
  Hypothesis Hstop : ~ In stop first.
  Hypothesis Hss : sep <> stop.
  Variable V : rstr -> Prop.
  Hypothesis Vapp : forall w r, V (w ++ r) -> V r.

  Lemma collect_sound : (forall st, length (remaining st) <= b -> V (remaining st) -> good P Q (item st) (remaining st)) ->
    forall fuel st, length (remaining st) < fuel -> length (remaining st) <= b -> V (remaining st) ->
    let x := iter_collect item sep stop sset first fuel st in
    match fst x with
    | Ok l => (l = [] /\ remaining (snd x) = remaining st /\ (remaining st = [] \/ hd_error (remaining st) = Some stop)) \/
              exists w, remaining st = w ++ remaining (snd x) /\ SepBy w l /\ hd_error (remaining (snd x)) = Some stop
    | Err _ => True
    | Panic => Q (remaining st) \/ exists w l r', SepBy w l /\ remaining st = w ++ [sep] ++ r' /\ Q r'
    | OutOfFuel => False
    end.
  Proof.
    intros Hitem. induction fuel as [| n IH]; intros st Hf Hb HV; [lia |]. cbn zeta. cbn [iter_collect]. unfold iter_next.
    destruct (r_peek st) as (st1 & -> & R1). destruct (remaining st) as [| c r] eqn:R; cbn [hd_error].
    - cbn [fst snd]. left. auto.
    - destruct (N.eqb_spec c stop) as [-> | Hc]; [cbn [fst snd]; left; auto |].
      specialize (Hitem st1). rewrite R1 in Hitem. specialize (Hitem Hb HV). unfold good in Hitem. destruct (item st1) as [y st2]. cbn [fst snd] in Hitem.
      assert (Hrest : forall x : option (res A take_error) * iw, (exists e, fst x = Some (Err e)) ->
        fst (let '(x, st1) := x in
          match x with
          | Some (Ok v) => let '(r, st2) := iter_collect item sep stop sset first n st1 in (res_map (cons v) r, st2)
          | Some (Err e) => (Err e, st1)
          | Some Panic => (Panic, st1)
          | Some OutOfFuel => (OutOfFuel, st1)
          | None => (Ok [], st1)
          end) = Panic -> False).
      { intros [x s] [e He]. cbn in He. subst x. discriminate. }
      assert (Herr : forall e, y = Err e -> exists e',
        fst (let '(p2, st3) := iw_peek st2 in
             match p2 with
             | Some c2 =>
               if N.eqb c2 sep then
                 let st4 := snd (iw_next st3) in
                 let '(p3, st5) := iw_peek st4 in
                 match p3 with
                 | Some c3 => if mem_char c3 first then (Some y, st5) else (Some (Err (BadBranch (iw_pos st5) c3 first)), st5)
                 | None => (Some (Err (EndOfStream (iw_pos st5))), st5)
                 end
               else if N.eqb c2 stop then (Some y, st3)
               else (Some (Err (BadBranch (iw_pos st3) c2 sset)), st3)
             | None => (Some (Err (EndOfStream (iw_pos st3))), st3)
             end) = Some (Err e')).
      { intros e ->. destruct (iw_peek st2) as [[c2 |] st3]; [| cbn; eauto]. destruct (N.eqb c2 sep).
        - cbn zeta. destruct (iw_peek (snd (iw_next st3))) as [[c3 |] st5]; [destruct (mem_char c3 first) |]; cbn; eauto.
        - destruct (N.eqb c2 stop); cbn; eauto. }
      destruct y as [v | e | |].
      + destruct Hitem as (w & Ew & Hw). destruct (r_peek st2) as (st3 & -> & R3). destruct (remaining st2) as [| c2 r2] eqn:R2; cbn [hd_error]; [exact Logic.I |].
        destruct (N.eqb_spec c2 sep) as [-> | Hc2].
        * cbn zeta. destruct (r_next st3) as (st4 & E4 & R4). rewrite E4. cbn [snd]. rewrite R3 in R4. cbn [tl] in R4.
          destruct (r_peek st4) as (st5 & -> & R5). rewrite R4 in *. destruct r2 as [| c3 r3]; cbn [hd_error]; [exact Logic.I |].
          destruct (mem_char c3 first) eqn:E3; [| exact Logic.I].
          assert (L : length (c3 :: r3) < n).
          { pose proof (f_equal (@length _) Ew) as El. rewrite app_length in El. cbn [length] in *. lia. }
          specialize (IH st5). rewrite R5 in IH. specialize (IH L).
          assert (L2 : length (c3 :: r3) <= b).
          { pose proof (f_equal (@length _) Ew) as El. rewrite app_length in El. cbn [length] in *. lia. }
          specialize (IH L2).
          assert (HV3 : V (c3 :: r3)).
          { apply (Vapp (w ++ [sep])). rewrite <- app_assoc. cbn [app]. now rewrite <- Ew. }
          specialize (IH HV3). cbn zeta in IH. destruct (iter_collect item sep stop sset first n st5) as [z st6]. cbn [fst snd] in *.
          destruct z as [l | e | |]; cbn [res_map]; [| exact Logic.I | | exact IH].
          -- destruct IH as [(-> & _ & [E | E]) | (w' & E & Hl & Hst)].
             ++ discriminate E.
             ++ injection E as ->. apply mem_char_In in E3. contradiction.
             ++ right. exists (w ++ [sep] ++ w'). split; [| split; [now constructor | exact Hst]]. rewrite Ew, E. now rewrite <- !app_assoc.
          -- right. destruct IH as [HQ | (w' & l & r' & Hl & E & HQ)].
             ++ exists w, [v], (c3 :: r3). split; [now constructor |]. auto.
             ++ exists (w ++ [sep] ++ w'), (v :: l), r'. split; [now constructor |]. split; [| exact HQ]. rewrite Ew, E. now rewrite <- !app_assoc.
        * destruct (N.eqb_spec c2 stop) as [-> | Hc2']; [| exact Logic.I].
          specialize (IH st3). rewrite R3 in IH.
          destruct n as [| n].
          { pose proof (f_equal (@length _) Ew) as El. rewrite app_length in El. cbn [length] in *. assert (w = []) by (destruct w; [reflexivity | cbn in El; lia]). subst w. cbn in Ew. injection Ew as ->. congruence. }
          cbn [iter_collect]. unfold iter_next. destruct (r_peek st3) as (st4 & -> & R4). rewrite R3 in R4. rewrite R3. cbn [hd_error]. rewrite N.eqb_refl. cbn [fst snd res_map].
          right. exists w. rewrite R4. split; [exact Ew |]. split; [now constructor | reflexivity].
      + destruct (Herr e eq_refl) as [e' He']. match type of He' with fst ?z = _ => destruct z as [y' s'] end. cbn [fst] in He'. subst y'. exact Logic.I.
      + cbn [fst snd]. left. exact Hitem.
      + contradiction.
  Qed.

  Variable ends : rstr -> Prop.
  Hypothesis ends_sep : forall r, ends (sep :: r).
  Hypothesis ends_stop : forall r, ends (stop :: r).
  Hypothesis P_first : forall w v, P w v -> exists c w', w = c :: w' /\ In c first.
  Hypothesis item_complete : forall w v r st, P w v -> remaining st = w ++ r -> ends r -> length (remaining st) <= b -> yields (item st) v r.
  Lemma sepby_first w l : SepBy w l -> exists c w', w = c :: w' /\ In c first.
  Proof.
    intros [w' v H | w1 v w2 l' H _]; [eauto |]. destruct (P_first _ _ H) as (c & w' & -> & Hc). exists c, (w' ++ [sep] ++ w2). auto.
  Qed.
  Lemma collect_complete w l : SepBy w l -> forall fuel st r, remaining st = w ++ [stop] ++ r -> length (remaining st) <= fuel -> length (remaining st) <= b ->
    yields (iter_collect item sep stop sset first fuel st) l (stop :: r).
  Proof.
    induction 1 as [w v Hw | w v w' l Hw Hl IH]; intros fuel st r R Hf Hb.
    - destruct (P_first _ _ Hw) as (c & w0 & Ew & Hc). destruct fuel as [| n]; [rewrite R, Ew in Hf; cbn in Hf; lia |].
      cbn [iter_collect]. unfold iter_next. destruct (r_peek st) as (st1 & -> & R1). rewrite R. rewrite R in R1. rewrite Ew at 1. cbn [app hd_error].
      destruct (N.eqb_spec c stop) as [-> | _]; [contradiction |].
      destruct (item_complete w v ([stop] ++ r) st1 Hw R1 (ends_stop r)) as (st2 & E2 & R2); [rewrite R1, <- R; exact Hb |]. rewrite E2.
      destruct (r_peek st2) as (st3 & -> & R3). rewrite R2 in *. cbn [app hd_error]. destruct (N.eqb_spec stop sep) as [E | _]; [congruence |]. rewrite N.eqb_refl.
      assert (Hn : 1 <= n) by (rewrite R, Ew in Hf; cbn [length app] in Hf; rewrite app_length in Hf; cbn in Hf; lia).
      destruct n as [| n]; [lia |]. cbn [iter_collect]. unfold iter_next. destruct (r_peek st3) as (st4 & -> & R4). rewrite R3 in *. cbn [app hd_error]. rewrite N.eqb_refl.
      exists st4. auto.
    - destruct (P_first _ _ Hw) as (c & w0 & Ew & Hc). destruct fuel as [| n]; [rewrite R, Ew in Hf; cbn in Hf; lia |].
      rewrite <- !app_assoc in R.
      cbn [iter_collect]. unfold iter_next. destruct (r_peek st) as (st1 & -> & R1). rewrite R. rewrite R in R1. rewrite Ew at 1. cbn [app hd_error].
      destruct (N.eqb_spec c stop) as [-> | _]; [contradiction |].
      destruct (item_complete w v _ st1 Hw R1 (ends_sep _)) as (st2 & E2 & R2); [rewrite R1, <- R; exact Hb |]. rewrite E2.
      destruct (r_peek st2) as (st3 & -> & R3). rewrite R2 in *. cbn [app hd_error]. rewrite N.eqb_refl. cbn zeta.
      destruct (r_next st3) as (st4 & E4 & R4). rewrite E4. cbn [snd]. rewrite R3 in R4. cbn [app tl] in R4.
      destruct (r_peek st4) as (st5 & -> & R5). rewrite R4 in *. destruct (sepby_first _ _ Hl) as (c' & w1 & Ew' & Hc'). rewrite Ew' at 1. cbn [app hd_error].
      rewrite (proj2 (mem_char_In c' first) Hc').
      destruct (IH n st5 r) as (st6 & E6 & R6).
      + exact R5.
      + rewrite R5. rewrite R in Hf. rewrite app_length in Hf. cbn [length app] in Hf. apply (f_equal (@length _)) in Ew. cbn in Ew. lia.
      + rewrite R5. rewrite R in Hb. rewrite app_length in Hb. cbn [length app] in Hb. lia.
      + exists st6. rewrite E6. auto.
  Qed.
  (** An item that panics. *)
  Hypothesis item_doom : forall st, Q (remaining st) -> length (remaining st) <= b -> fst (item st) = Panic.
  Hypothesis Q_first : forall r, Q r -> exists c r', r = c :: r' /\ In c first.
  Lemma collect_doom fuel st : Q (remaining st) -> length (remaining st) <= b -> length (remaining st) <= fuel -> fst (iter_collect item sep stop sset first fuel st) = Panic.
  Proof.
    intros HQ Hb Hf. destruct (Q_first _ HQ) as (c & r' & R & Hc). destruct fuel as [| n]; [rewrite R in Hf; cbn in Hf; lia |].
    cbn [iter_collect]. unfold iter_next. destruct (r_peek st) as (st1 & -> & R1). rewrite <- R1 in HQ. rewrite R at 1. cbn [hd_error].
    destruct (N.eqb_spec c stop) as [-> | _]; [contradiction |].
    assert (E : fst (item st1) = Panic) by (apply item_doom; [exact HQ | rewrite R1; exact Hb]).
    destruct (item st1) as [y st2]. cbn [fst] in E. subst y. reflexivity.
  Qed.
  Lemma collect_doom_later w l : SepBy w l -> forall fuel st r, remaining st = w ++ [sep] ++ r -> Q r -> length (remaining st) <= fuel -> length (remaining st) <= b ->
    fst (iter_collect item sep stop sset first fuel st) = Panic.
  Proof.
    assert (Hgo : forall w v, P w v -> forall n st r, remaining st = w ++ [sep] ++ r -> length (remaining st) <= S n -> length (remaining st) <= b ->
      (exists c r', r = c :: r' /\ In c first) ->
      (forall st', remaining st' = r -> length r <= n -> length r <= b -> fst (iter_collect item sep stop sset first n st') = Panic) ->
      fst (iter_collect item sep stop sset first (S n) st) = Panic).
    { intros w' v Hw n st r R Hf Hb (c' & r' & Er & Hc') Hnext. destruct (P_first _ _ Hw) as (c & w0 & Ew & Hc).
      cbn [iter_collect]. unfold iter_next. destruct (r_peek st) as (st1 & -> & R1). rewrite R. rewrite R in R1. rewrite Ew at 1. cbn [app hd_error].
      destruct (N.eqb_spec c stop) as [-> | _]; [contradiction |].
      destruct (item_complete w' v _ st1 Hw R1 (ends_sep _)) as (st2 & E2 & R2); [rewrite R1, <- R; exact Hb |]. rewrite E2.
      destruct (r_peek st2) as (st3 & -> & R3). rewrite R2 in *. cbn [app hd_error]. rewrite N.eqb_refl. cbn zeta.
      destruct (r_next st3) as (st4 & E4 & R4). rewrite E4. cbn [snd]. rewrite R3 in R4. cbn [app tl] in R4.
      destruct (r_peek st4) as (st5 & -> & R5). rewrite R4 in *. rewrite Er at 1. cbn [hd_error].
      rewrite (proj2 (mem_char_In c' first) Hc').
      rewrite R in Hf, Hb. rewrite app_length in Hf, Hb. cbn [length app] in Hf, Hb. apply (f_equal (@length _)) in Ew. cbn in Ew.
      assert (E : fst (iter_collect item sep stop sset first n st5) = Panic) by (apply Hnext; [exact R5 | lia | lia]).
      destruct (iter_collect item sep stop sset first n st5) as [y st6]. cbn [fst] in *. subst y. reflexivity. }
    induction 1 as [w v Hw | w v w' l Hw Hl IH]; intros fuel st r R HQ Hf Hb.
    - destruct fuel as [| n]; [rewrite R, app_length in Hf; cbn in Hf; lia |]. apply (Hgo w v Hw n st r R Hf Hb); [now apply Q_first |].
      intros st' R' Hn Hb'. apply collect_doom; rewrite R'; auto.
    - destruct fuel as [| n]; [rewrite R, !app_length in Hf; cbn in Hf; lia |]. rewrite <- !app_assoc in R.
      apply (Hgo w v Hw n st (w' ++ [sep] ++ r) R Hf Hb).
      + destruct (sepby_first _ _ Hl) as (c & w1 & -> & Hc). exists c, (w1 ++ [sep] ++ r). auto.
      + intros st' R' Hn Hb'. apply (IH n st' r R' HQ); rewrite R'; assumption.
  Qed.
End Loop.
