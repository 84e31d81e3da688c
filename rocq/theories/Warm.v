(** * Warm: type inference that starts each fixed-point loop where the loop
    ended the last time.  It is not part of the model: it computes the result
    of [infer] quickly, so that [typecheck] can be evaluated on large grammars
    (AutoTable.v). *)
From Verif Require Import InferMore Main.
From Coq Require Import List Lia.

Fixpoint wloop (step : ty -> option texpr -> option texpr) (n : nat) (last : ty) (h : option texpr) : option texpr :=
  match n with
  | O => None
  | S n' =>
    match step last h with
    | Some r => if ty_eqb last (get_type r) then Some r else wloop step n' (get_type r) (Some r)
    | None => None
    end
  end.
Definition wseq (inf : nexpr -> option texpr -> option texpr) :=
  fix go (t : ty) (l : list (span * nexpr)) (hs : list texpr) : option (list texpr * ty) :=
    match l with
    | [] => Some ([], t)
    | (_, e) :: l' =>
      match inf e (hd_error hs) with
      | Some r => if cset_disjoint (flast_set t) (first_set (get_type r)) then option_map (fun p => (r :: fst p, snd p)) (go (ty_cat t (get_type r)) l' (tl hs)) else None
      | None => None
      end
    end.
Definition walt (inf : nexpr -> option texpr -> option texpr) :=
  fix go (t : ty) (l : list (span * nexpr)) (hs : list texpr) : option (list texpr * ty) :=
    match l with
    | [] => Some ([], t)
    | (_, e) :: l' =>
      match inf e (hd_error hs) with
      | Some r =>
        if nullable t && nullable (get_type r) then None
        else if cset_disjoint (first_set t) (first_set (get_type r)) then option_map (fun p => (r :: fst p, snd p)) (go (ty_alt t (get_type r)) l' (tl hs)) else None
      | None => None
      end
    end.
Definition parts (h : option texpr) : list texpr := match h with Some (TCat _ l _) | Some (TAlt _ l _) => l | _ => [] end.
Definition part (h : option texpr) : option texpr := match h with Some (TFix _ i) => Some i | _ => None end.
Definition start (h : option texpr) : ty := match h with Some i => get_type i | None => ty_default end.
Fixpoint warm (fuel : nat) (nm : option name) (c : tctx) (e : nexpr) (h : option texpr) {struct e} : option texpr :=
  match e with
  | EEps a => Some (TEps (Ann nm (a_span a)) ty_eps)
  | ELit a s => Some (TLit (Ann nm (a_span a)) s (ty_of_str s))
  | ECat a first rest =>
    match warm fuel (e_name first) c first (hd_error (parts h)) with
    | Some f =>
      if nullable (get_type f) then None
      else option_map (fun p => TCat (Ann nm (a_span a)) (f :: fst p) (snd p)) (wseq (fun e h => warm fuel (e_name e) (push_unguard c) e h) (get_type f) rest (tl (parts h)))
    | None => None
    end
  | EAlt a first rest =>
    match warm fuel (e_name first) c first (hd_error (parts h)) with
    | Some f => option_map (fun p => TAlt (Ann nm (a_span a)) (f :: fst p) (snd p)) (walt (fun e h => warm fuel (e_name e) c e h) (get_type f) rest (tl (parts h)))
    | None => None
    end
  | EFix a (ELam ai _ body) =>
    option_map (TFix (Ann nm (a_span a))) (wloop (fun last h => warm fuel (merge_all [a_name ai; e_name body; nm]) (push_var last c) body h) fuel (start (part h)) (part h))
  | EVar a i => match get_variable_type c i with Ok t => Some (TVar (Ann nm (a_span a)) i t) | _ => None end
  | _ => None
  end.

(** ** What is inferred, whatever the fuel *)
Definition infers (nm : option name) (c : tctx) (e : nexpr) (r : texpr) : Prop := exists N, forall fuel, N <= fuel -> infer fuel nm c e = Ok r.
Lemma infers_run nm c e r fuel : infer fuel nm c e = Ok r -> infers nm c e r.
Proof. intros E. exists fuel. intros f Hf. rewrite <- E. apply infer_fuel_mono; [exact Hf | congruence]. Qed.
Lemma infers_mono nm nm0 c c0 e r r0 : reachable_ctx c -> reachable_ctx c0 -> env_le (env_of c0) (env_of c) -> infers nm0 c0 e r0 -> infers nm c e r -> st_le (st_of (get_type r0)) (st_of (get_type r)).
Proof.
  intros Hc Hc0 Hle [N E0] [M E]. specialize (E0 N (le_n _)). specialize (E M (le_n _)). apply reachable_wf in Hc, Hc0.
  destruct (infer_sound _ _ _ _ _ Hc E) as (g & s & Hg & _ & Ht & Hs). pose proof (infer_complete e N nm0 c0 g _ s Hc0 Hg Ht Hle) as B. rewrite E0 in B. cbn in B. eapply st_le_trans; [exact B | apply Hs].
Qed.
Lemma infers_ok nm c e r : reachable_ctx c -> infers nm c e r -> ty_ok (get_type r).
Proof.
  intros Hc [N E]. specialize (E N (le_n _)). refine (proj1 (infer_ok e N nm c (lit_chars e ++ ctx_chars c) _ _ r E)); [apply incl_appl, incl_refl |]. apply reachable_ok; [exact Hc |]. apply incl_appr, incl_refl.
Qed.
Lemma infers_fun nm c e r r' : infers nm c e r -> infers nm c e r' -> r = r'.
Proof. intros [N E] [M E']. specialize (E (Nat.max N M) (Nat.le_max_l _ _)). specialize (E' (Nat.max N M) (Nat.le_max_r _ _)). congruence. Qed.
Lemma reach_push c t : reachable_ctx c -> ty_ok t -> reachable_ctx (push_var t c).
Proof. intros Hc [H1 H2]. now apply reach_var. Qed.
Lemma ty_same a b : ty_ok a -> ty_ok b -> st_le (st_of a) (st_of b) -> st_le (st_of b) (st_of a) -> a = b.
Proof.
  intros Ha Hb H1 H2. apply ty_eqb_eq. destruct (ty_eqb a b) eqn:E; [reflexivity |]. pose proof (ty_size_lt a b Ha Hb H1 E). assert (E' : ty_eqb b a = false) by (destruct (ty_eqb b a) eqn:X; [| reflexivity]; apply ty_eqb_eq in X; subst; rewrite <- E; symmetry; now apply ty_eqb_eq).
  pose proof (ty_size_lt b a Hb Ha H2 E'). lia.
Qed.
Lemma infers_cat nm c a first rest f ts b t : infers nm c (ECat a first rest) (TCat b (f :: ts) t) -> infers (e_name first) c first f /\ Forall2 (fun p x => infers (e_name (snd p)) (push_unguard c) (snd p) x) rest ts.
Proof.
  intros [N E]. specialize (E N (le_n _)). rewrite infer_cat in E. destruct (infer N (e_name first) c first) as [f' | | |] eqn:Ef; try discriminate. destruct (nullable (get_type f')); [discriminate |].
  destruct (seq_go _ _ _) as [[ts' t'] | | |] eqn:Es; try discriminate. injection E as <- <- <- <-. split; [now apply (infers_run _ _ _ _ N) |].
  clear Ef. revert Es. generalize (get_type f'). revert ts' t'. induction rest as [| [p e] rest IH]; intros ts' t' t0 Es; cbn [seq_go] in Es; [injection Es as <- _; constructor |].
  destruct (infer N (e_name e) (push_unguard c) e) as [r | | |] eqn:Er; try discriminate. destruct (cset_disjoint _ _); [| discriminate]. fold (seq_go (fun e => infer N (e_name e) (push_unguard c) e)) in Es. destruct (seq_go _ _ rest) as [[ts1 t1] | | |] eqn:E1; try discriminate. injection Es as <- _.
  constructor; [now apply (infers_run _ _ _ _ N) | now apply (IH _ _ _ E1)].
Qed.
Lemma infers_alt nm c a first rest f ts b t : infers nm c (EAlt a first rest) (TAlt b (f :: ts) t) -> infers (e_name first) c first f /\ Forall2 (fun p x => infers (e_name (snd p)) c (snd p) x) rest ts.
Proof.
  intros [N E]. specialize (E N (le_n _)). rewrite infer_alt in E. destruct (infer N (e_name first) c first) as [f' | | |] eqn:Ef; try discriminate.
  destruct (alt_go _ _ _) as [[ts' t'] | | |] eqn:Es; try discriminate. injection E as <- <- <- <-. split; [now apply (infers_run _ _ _ _ N) |].
  clear Ef. revert Es. generalize (get_type f'). revert ts' t'. induction rest as [| [p e] rest IH]; intros ts' t' t0 Es; cbn [alt_go] in Es; [injection Es as <- _; constructor |].
  destruct (infer N (e_name e) c e) as [r | | |] eqn:Er; try discriminate. destruct (_ && _); [discriminate |]. destruct (cset_disjoint _ _); [| discriminate]. fold (alt_go (fun e => infer N (e_name e) c e)) in Es. destruct (alt_go _ _ rest) as [[ts1 t1] | | |] eqn:E1; try discriminate. injection Es as <- _.
  constructor; [now apply (infers_run _ _ _ _ N) | now apply (IH _ _ _ E1)].
Qed.
Lemma infers_fix nm c a ai ns body b r : infers nm c (EFix a (ELam ai ns body)) (TFix b r) -> infers (merge_all [a_name ai; e_name body; nm]) (push_var (get_type r) c) body r.
Proof.
  intros [N E]. specialize (E N (le_n _)). rewrite infer_fix in E. destruct (fix_loop _ _ _) as [r' | | |] eqn:Ef; try discriminate. injection E as <- <-. apply fix_loop_ok in Ef. now apply (infers_run _ _ _ _ N).
Qed.

(** ** Hints: results for the same expression and smaller variables *)
Definition hint (c : tctx) (e : nexpr) (h : option texpr) : Prop :=
  forall r0, h = Some r0 -> exists c0 nm0, reachable_ctx c0 /\ env_le (env_of c0) (env_of c) /\ infers nm0 c0 e r0.
Lemma hint_none c e : hint c e None. Proof. intros r0 E. discriminate E. Qed.
Definition hints (c : tctx) (l : list (span * nexpr)) (hs : list texpr) : Prop := hs = [] \/ Forall2 (fun p x => hint c (snd p) (Some x)) l hs.
Lemma hints_cons c p l hs : hints c (p :: l) hs -> hint c (snd p) (hd_error hs) /\ hints c l (tl hs).
Proof. intros [-> | H]; [split; [apply hint_none | now left] |]. inversion H; subst. split; [assumption | now right]. Qed.
Lemma hint_cat c a first rest h : reachable_ctx c -> hint c (ECat a first rest) h -> hint c first (hd_error (parts h)) /\ hints (push_unguard c) rest (tl (parts h)).
Proof.
  intros Hc H. destruct h as [r0 |]; [| split; [apply hint_none | now left]]. destruct (H r0 eq_refl) as (c0 & nm0 & H1 & H2 & H3).
  assert (exists b f ts t, r0 = TCat b (f :: ts) t) as (b & f & ts & t & ->).
  { destruct H3 as [N E]. specialize (E N (le_n _)). rewrite infer_cat in E. destruct (infer N (e_name first) c0 first) as [f' | | |]; try discriminate. destruct (nullable _); [discriminate |]. destruct (seq_go _ _ _) as [[ts' t'] | | |]; try discriminate. injection E as <-. eauto. }
  apply infers_cat in H3 as [Hf Hr]. cbn [parts hd_error tl]. split; [intros x [= <-]; eauto |]. right. clear H. induction Hr as [| p x rest ts Hx _ IH]; constructor; [| exact IH].
  intros y [= <-]. exists (push_unguard c0), (e_name (snd p)). split; [now apply reach_unguard |]. split; [rewrite !env_of_unguard; now apply env_le_unguard | exact Hx].
Qed.
Lemma hint_alt c a first rest h : reachable_ctx c -> hint c (EAlt a first rest) h -> hint c first (hd_error (parts h)) /\ hints c rest (tl (parts h)).
Proof.
  intros Hc H. destruct h as [r0 |]; [| split; [apply hint_none | now left]]. destruct (H r0 eq_refl) as (c0 & nm0 & H1 & H2 & H3).
  assert (exists b f ts t, r0 = TAlt b (f :: ts) t) as (b & f & ts & t & ->).
  { destruct H3 as [N E]. specialize (E N (le_n _)). rewrite infer_alt in E. destruct (infer N (e_name first) c0 first) as [f' | | |]; try discriminate. destruct (alt_go _ _ _) as [[ts' t'] | | |]; try discriminate. injection E as <-. eauto. }
  apply infers_alt in H3 as [Hf Hr]. cbn [parts hd_error tl]. split; [intros x [= <-]; eauto |]. right. clear H. induction Hr as [| p x rest ts Hx _ IH]; constructor; [| exact IH].
  intros y [= <-]. exists c0, (e_name (snd p)). auto.
Qed.
Lemma env_le_push c0 c t0 t : reachable_ctx c0 -> reachable_ctx c -> env_le (env_of c0) (env_of c) -> st_le (st_of t0) (st_of t) -> env_le (env_of (push_var t0 c0)) (env_of (push_var t c)).
Proof. intros H0 H Hle Ht. rewrite !env_of_var by now apply reachable_wf. constructor; [split; auto | exact Hle]. Qed.

(** ** The results are those of [infer]. *)
Lemma wseq_seq inf c l : Forall (fun p => forall h r, hint c (snd p) h -> inf (snd p) h = Some r -> infers (e_name (snd p)) c (snd p) r) l ->
  forall t hs ts t', hints c l hs -> wseq inf t l hs = Some (ts, t') -> exists N, forall fuel, N <= fuel -> seq_go (fun e => infer fuel (e_name e) c e) t l = Ok (ts, t').
Proof.
  induction l as [| [p e] l IH]; intros F t hs ts t' Hh E; cbn [wseq seq_go] in *; [injection E as <- <-; exists 0; reflexivity |].
  apply Forall_cons_iff in F as [F1 F2]. apply hints_cons in Hh as [Hh1 Hh2]. cbn [snd] in *. fold (wseq inf) in E. destruct (inf e (hd_error hs)) as [r |] eqn:Er; [| discriminate]. destruct (F1 _ _ Hh1 Er) as [N HN].
  destruct (cset_disjoint _ _) eqn:D; [| discriminate]. destruct (wseq inf _ l (tl hs)) as [[ts1 t1] |] eqn:E1; [| discriminate]. cbn in E. injection E as <- <-.
  destruct (IH F2 _ _ _ _ Hh2 E1) as [M HM]. exists (Nat.max N M). intros fuel Hf. rewrite HN by lia. rewrite D. fold (seq_go (fun e => infer fuel (e_name e) c e)). now rewrite HM by lia.
Qed.
Lemma walt_alt inf c l : Forall (fun p => forall h r, hint c (snd p) h -> inf (snd p) h = Some r -> infers (e_name (snd p)) c (snd p) r) l ->
  forall t hs ts t', hints c l hs -> walt inf t l hs = Some (ts, t') -> exists N, forall fuel, N <= fuel -> alt_go (fun e => infer fuel (e_name e) c e) t l = Ok (ts, t').
Proof.
  induction l as [| [p e] l IH]; intros F t hs ts t' Hh E; cbn [walt alt_go] in *; [injection E as <- <-; exists 0; reflexivity |].
  apply Forall_cons_iff in F as [F1 F2]. apply hints_cons in Hh as [Hh1 Hh2]. cbn [snd] in *. fold (walt inf) in E. destruct (inf e (hd_error hs)) as [r |] eqn:Er; [| discriminate]. destruct (F1 _ _ Hh1 Er) as [N HN].
  destruct (_ && _) eqn:B; [discriminate |]. destruct (cset_disjoint _ _) eqn:D; [| discriminate]. destruct (walt inf _ l (tl hs)) as [[ts1 t1] |] eqn:E1; [| discriminate]. cbn in E. injection E as <- <-.
  destruct (IH F2 _ _ _ _ Hh2 E1) as [M HM]. exists (Nat.max N M). intros fuel Hf. rewrite HN by lia. rewrite B, D. fold (alt_go (fun e => infer fuel (e_name e) c e)). now rewrite HM by lia.
Qed.
Lemma warm_infers e : forall fuel nm c h r, reachable_ctx c -> hint c e h -> warm fuel nm c e h = Some r -> infers nm c e r.
Proof.
  induction e using nexpr_ind_fix; intros fuel nm c h t Hc Hh E; try discriminate.
  - cbn [warm] in E. injection E as <-. now exists 0.
  - cbn [warm] in E. injection E as <-. now exists 0.
  - cbn [warm] in E. apply hint_cat in Hh as [Hh1 Hh2]; [| exact Hc]. destruct (warm fuel (e_name e) c e _) as [f |] eqn:Ef; [| discriminate]. destruct (IHe _ _ _ _ _ Hc Hh1 Ef) as [N HN].
    destruct (nullable (get_type f)) eqn:Hn; [discriminate |]. destruct (wseq _ _ _ _) as [[ts t'] |] eqn:Es; [| discriminate]. cbn in E. injection E as <-.
    pose proof (reach_unguard _ Hc) as Hcu.
    assert (F : Forall (fun p => forall h r, hint (push_unguard c) (snd p) h -> (fun e h => warm fuel (e_name e) (push_unguard c) e h) (snd p) h = Some r -> infers (e_name (snd p)) (push_unguard c) (snd p) r) r).
    { eapply Forall_impl; [| eassumption]. cbn. intros p Hp h' r' Hh' E'. exact (Hp fuel _ _ h' r' Hcu Hh' E'). }
    destruct (wseq_seq _ (push_unguard c) _ F _ _ _ _ Hh2 Es) as [M HM].
    exists (Nat.max N M). intros fl Hf. rewrite infer_cat, HN, Hn, HM by lia. reflexivity.
  - cbn [warm] in E. apply hint_alt in Hh as [Hh1 Hh2]; [| exact Hc]. destruct (warm fuel (e_name e) c e _) as [f |] eqn:Ef; [| discriminate]. destruct (IHe _ _ _ _ _ Hc Hh1 Ef) as [N HN].
    destruct (walt _ _ _ _) as [[ts t'] |] eqn:Es; [| discriminate]. cbn in E. injection E as <-.
    assert (F : Forall (fun p => forall h r, hint c (snd p) h -> (fun e h => warm fuel (e_name e) c e h) (snd p) h = Some r -> infers (e_name (snd p)) c (snd p) r) r).
    { eapply Forall_impl; [| eassumption]. cbn. intros p Hp h' r' Hh' E'. exact (Hp fuel _ _ h' r' Hc Hh' E'). }
    destruct (walt_alt _ c _ F _ _ _ _ Hh2 Es) as [M HM].
    exists (Nat.max N M). intros fl Hf. rewrite infer_alt, HN, HM by lia. reflexivity.
  - cbn [warm] in E. set (bn := merge_all [a_name ai; e_name e; nm]) in *. destruct (wloop _ _ _ _) as [r |] eqn:El; [| discriminate]. cbn in E. injection E as <-.
    (* the loop ends with a type that the body reproduces *)
    assert (W : forall n last h, ty_ok last -> (forall r1, infers bn (push_var last c) e r1 -> st_le (st_of last) (st_of (get_type r1))) -> (forall t1, ty_ok t1 -> st_le (st_of last) (st_of t1) -> hint (push_var t1 c) e h) ->
      wloop (fun last h => warm fuel bn (push_var last c) e h) n last h = Some r ->
      ty_ok (get_type r) /\ infers bn (push_var (get_type r) c) e r /\ forall L, ty_ok L -> st_le (st_of last) (st_of L) -> (forall rl, infers bn (push_var L c) e rl -> get_type rl = L) -> (exists rl, infers bn (push_var L c) e rl) -> st_le (st_of (get_type r)) (st_of L)).
    { induction n as [| n IHn]; intros last h0 Hok Hinc Hhint Ew; cbn [wloop] in Ew; [discriminate |]. destruct (warm fuel bn (push_var last c) e h0) as [r1 |] eqn:E1; [| discriminate].
      pose proof (reach_push c last Hc Hok) as Hcl. assert (I1 : infers bn (push_var last c) e r1) by (apply (IHe _ _ _ _ _ Hcl) in E1; [exact E1 |]; apply Hhint; [exact Hok | apply st_le_refl]).
      assert (Up : forall L, ty_ok L -> st_le (st_of last) (st_of L) -> (forall rl, infers bn (push_var L c) e rl -> get_type rl = L) -> (exists rl, infers bn (push_var L c) e rl) -> st_le (st_of (get_type r1)) (st_of L)).
      { intros L HL Hle Hfix [rl Hrl]. rewrite <- (Hfix rl Hrl) at 1. apply (infers_mono bn bn (push_var L c) (push_var last c) e rl r1); auto using reach_push. apply env_le_push; auto. apply env_le_refl. }
      destruct (ty_eqb last (get_type r1)) eqn:Et.
      - injection Ew as <-. apply ty_eqb_eq in Et. rewrite <- Et at 1 2. split; [exact Hok |]. split; [exact I1 | exact Up].
      - pose proof (infers_ok _ _ _ _ Hcl I1) as Hok1. destruct (IHn (get_type r1) (Some r1)) as (A0 & A & B); [exact Hok1 | | | exact Ew |].
        + intros r2 I2. apply (infers_mono bn bn (push_var (get_type r1) c) (push_var last c) e r2 r1); auto using reach_push. apply env_le_push; auto using env_le_refl.
        + intros t1 H1 H2 x [= <-]. exists (push_var last c), bn. split; [exact Hcl |]. split; [| exact I1]. apply env_le_push; auto using env_le_refl. eapply st_le_trans; [| exact H2]. now apply Hinc.
        + split; [exact A0 |]. split; [exact A |]. intros L HL Hle Hfix Hex. apply B; auto. }
    (* where it starts *)
    assert (Hs : ty_ok (start (part h)) /\ (forall r1, infers bn (push_var (start (part h)) c) e r1 -> st_le (st_of (start (part h))) (st_of (get_type r1)))
      /\ (forall t1, ty_ok t1 -> st_le (st_of (start (part h))) (st_of t1) -> hint (push_var t1 c) e (part h))
      /\ forall L b, infers nm c (EFix a (ELam ai ns e)) (TFix b L) -> st_le (st_of (start (part h))) (st_of (get_type L))).
    { assert (D : part h = None -> ty_ok (start (part h)) /\ (forall r1, infers bn (push_var (start (part h)) c) e r1 -> st_le (st_of (start (part h))) (st_of (get_type r1)))
        /\ (forall t1, ty_ok t1 -> st_le (st_of (start (part h))) (st_of t1) -> hint (push_var t1 c) e (part h))
        /\ forall L b, infers nm c (EFix a (ELam ai ns e)) (TFix b L) -> st_le (st_of (start (part h))) (st_of (get_type L))).
      { intros ->. cbn [start]. split; [apply ty_ok_default |]. split; [intros; apply st_of_default_le |]. split; [intros; apply hint_none | intros; apply st_of_default_le]. }
      destruct h as [r0 |]; [| now apply D]. destruct (Hh r0 eq_refl) as (c0 & nm0 & Hc0 & Hle & I0). destruct r0 as [| | | | b0 i0 |]; try (now apply D). clear D. cbn [part start].
      pose proof (infers_ok _ _ _ _ Hc0 I0) as Hok0. cbn [get_type] in Hok0. pose proof (infers_fix _ _ _ _ _ _ _ _ I0) as I0'. pose proof (reach_push c0 _ Hc0 Hok0) as Hp0. split; [exact Hok0 |]. split; [| split].
      - intros r1 I1. apply (infers_mono bn (merge_all [a_name ai; e_name e; nm0]) (push_var (get_type i0) c) (push_var (get_type i0) c0) e r1 i0 (reach_push _ _ Hc Hok0) Hp0); [| exact I0' | exact I1]. apply env_le_push; auto. apply st_le_refl.
      - intros t1 H1 H2 x [= <-]. do 2 eexists. split; [exact Hp0 |]. split; [| exact I0']. now apply env_le_push.
      - intros L b IL. exact (infers_mono nm nm0 c c0 _ (TFix b L) (TFix b0 i0) Hc Hc0 Hle I0 IL). }
    destruct Hs as (S1 & S2 & S3 & S4). destruct (W _ _ _ S1 S2 S3 El) as (Hokr & Ir & Least).
    (* hence the inference succeeds, with the same type *)
    pose proof (reachable_wf _ Hc) as Hwf.
    pose proof (reach_push c _ Hc Hokr) as Hcr. assert (Ix : exists b L, infers nm c (EFix a (ELam ai ns e)) (TFix b L) /\ st_le (st_of (get_type L)) (st_of (get_type r)) /\ b = Ann nm (a_span a)).
    { destruct Ir as [N HN]. specialize (HN N (le_n _)). apply infer_sound in HN as (g & s & Hg & _ & Ht & Hs); [| now apply reachable_wf]. rewrite env_of_var in Ht by exact Hwf.
      assert (Hgx : gram_of (EFix a (ELam ai ns e)) = Some (GFix g)) by (cbn [gram_of]; now rewrite Hg).
      pose proof (typed_fix _ _ _ _ Ht Hs) as Htx. destruct (infer_total (EFix a (ELam ai ns e)) nm c Hc) as (M & x & Hx1 & Hx2 & Hx). pose proof (infer_complete _ M nm c _ _ _ Hwf Hgx Htx (env_le_refl _)) as Bx.
      pose proof (Hx M (le_n _)) as Ex. rewrite Ex in Bx. destruct x as [r' | | |]; cbn in Bx; try contradiction; try congruence.
      pose proof Ex as Ey. rewrite infer_fix in Ey. destruct (fix_loop _ _ _) as [L | | |]; try discriminate. injection Ey as <-. exists (Ann nm (a_span a)), L. split; [now apply (infers_run _ _ _ _ M) |]. split; [exact Bx | reflexivity]. }
    destruct Ix as (b & L & IL & HL & ->). pose proof (infers_fix _ _ _ _ _ _ _ _ IL) as IL'. fold bn in IL'. pose proof (infers_ok _ _ _ _ Hc IL) as HokL. cbn [get_type] in HokL.
    assert (E : get_type r = get_type L).
    { apply ty_same; auto. apply Least; [exact HokL | exact (S4 L (Ann nm (a_span a)) IL) | intros rl Irl; now rewrite (infers_fun _ _ _ _ _ Irl IL') | now exists L]. }
    rewrite E in Ir. now rewrite (infers_fun _ _ _ _ _ Ir IL').
  - cbn [warm] in E. destruct e; try discriminate. exfalso. eapply H; reflexivity.
  - cbn [warm] in E. destruct (get_variable_type c i) as [ty | | |] eqn:Ev; try discriminate. injection E as <-. exists 0. intros fl _. cbn. now rewrite Ev.
Qed.
Theorem typecheck_warm fuel e r : warm fuel (e_name e) tctx_default e None = Some r -> typecheck e = Ok r.
Proof.
  intros E. apply warm_infers in E as [N E]; [| apply reach_empty | apply hint_none]. specialize (E N (le_n _)). rewrite <- (typecheck_any_fuel e N); [exact E | congruence].
Qed.
