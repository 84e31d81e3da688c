(** * InferFacts: type inference against the declarative typing rules. *)
From Verif Require Export TypeFacts.

(** The loops of [infer], over an arbitrary way of typing a term. *)
Definition seq_go (inf : nexpr -> res texpr type_error) :=
  fix go (t : ty) (l : list (span * nexpr)) : res (list texpr * ty) type_error :=
    match l with
    | [] => Ok ([], t)
    | (punct, rgt) :: l' =>
      match inf rgt with
      | Ok rgt' =>
        if cset_disjoint (flast_set t) (first_set (get_type rgt')) then
          match go (ty_cat t (get_type rgt')) l' with
          | Ok (ts, t') => Ok (rgt' :: ts, t')
          | Err x => Err x
          | Panic => Panic
          | OutOfFuel => OutOfFuel
          end
        else Err (FirstFlastOverlap t punct rgt')
      | Err x => Err x
      | Panic => Panic
      | OutOfFuel => OutOfFuel
      end
    end.

Definition alt_go (inf : nexpr -> res texpr type_error) :=
  fix go (t : ty) (l : list (span * nexpr)) : res (list texpr * ty) type_error :=
    match l with
    | [] => Ok ([], t)
    | (punct, rgt) :: l' =>
      match inf rgt with
      | Ok rgt' =>
        if nullable t && nullable (get_type rgt') then Err (BothNullable t punct rgt')
        else if cset_disjoint (first_set t) (first_set (get_type rgt')) then
          match go (ty_alt t (get_type rgt')) l' with
          | Ok (ts, t') => Ok (rgt' :: ts, t')
          | Err x => Err x
          | Panic => Panic
          | OutOfFuel => OutOfFuel
          end
        else Err (FirstOverlap t punct rgt')
      | Err x => Err x
      | Panic => Panic
      | OutOfFuel => OutOfFuel
      end
    end.

Lemma infer_cat fuel nm c a first rest :
  infer fuel nm c (ECat a first rest) =
  match infer fuel (e_name first) c first with
  | Ok first' =>
    if nullable (get_type first') then
      Err (FirstNullable first' (match rest with [] => call_site | (p, _) :: _ => p end))
    else
      match seq_go (fun e => infer fuel (e_name e) (push_unguard c) e) (get_type first') rest with
      | Ok (ts, t) => Ok (TCat (Ann nm (a_span a)) (first' :: ts) t)
      | Err x => Err x
      | Panic => Panic
      | OutOfFuel => OutOfFuel
      end
  | other => other
  end.
Proof. reflexivity. Qed.

Lemma infer_alt fuel nm c a first rest :
  infer fuel nm c (EAlt a first rest) =
  match infer fuel (e_name first) c first with
  | Ok first' =>
    match alt_go (fun e => infer fuel (e_name e) c e) (get_type first') rest with
    | Ok (ts, t) => Ok (TAlt (Ann nm (a_span a)) (first' :: ts) t)
    | Err x => Err x
    | Panic => Panic
    | OutOfFuel => OutOfFuel
    end
  | other => other
  end.
Proof. reflexivity. Qed.

Lemma infer_fix fuel nm c a inner :
  infer fuel nm c (EFix a inner) =
  match inner with
  | ELam ai _ body =>
    match fix_loop (fun last => infer fuel (merge_all [a_name ai; e_name body; nm]) (push_var last c) body)
                   fuel ty_default with
    | Ok r => Ok (TFix (Ann nm (a_span a)) r)
    | other => other
    end
  | _ => Err (ExpectedLambda (a_span a) inner)
  end.
Proof. destruct inner; reflexivity. Qed.

(** ** Contexts *)
Definition ctx_wf (c : tctx) : Prop := hd 0 (unguard_points c) <= length (vars c).

Lemma ctx_wf_default : ctx_wf tctx_default.
Proof. unfold ctx_wf; cbn; lia. Qed.
Lemma ctx_wf_unguard c : ctx_wf (push_unguard c).
Proof. unfold ctx_wf; cbn; lia. Qed.
Lemma ctx_wf_var t c : ctx_wf c -> ctx_wf (push_var t c).
Proof. unfold ctx_wf; cbn; lia. Qed.

Lemma combine_seq_nth {A} (l : list A) k i :
  nth_error (combine (seq k (length l)) l) i = option_map (fun x => (k + i, x)) (nth_error l i).
Proof.
  revert k i; induction l as [|x l IH]; intros k [|i]; cbn; try reflexivity.
  - rewrite Nat.add_0_r. reflexivity.
  - rewrite IH. destruct (nth_error l i); cbn; [|reflexivity]. do 2 f_equal. lia.
Qed.

Lemma env_of_nth c i :
  nth_error (env_of c) i =
  option_map (fun t => (Nat.leb (length (vars c)) (hd 0 (unguard_points c) + i), st_of t)) (nth_error (vars c) i).
Proof.
  unfold env_of. rewrite nth_error_map, combine_seq_nth.
  destruct (nth_error (vars c) i); reflexivity.
Qed.

Lemma nth_error_ext {A} (l l' : list A) : (forall i, nth_error l i = nth_error l' i) -> l = l'.
Proof.
  revert l'; induction l as [|x l IH]; intros [|y l'] H; [reflexivity| | |].
  - specialize (H 0). discriminate.
  - specialize (H 0). discriminate.
  - pose proof (H 0) as H0. injection H0 as ->. f_equal. apply IH. intros i. exact (H (S i)).
Qed.

Lemma env_of_unguard c : env_of (push_unguard c) = unguard (env_of c).
Proof.
  apply nth_error_ext. intros i. unfold unguard. rewrite nth_error_map, !env_of_nth. cbn [push_unguard vars unguard_points hd].
  destruct (nth_error (vars c) i); cbn; [|reflexivity].
  rewrite (proj2 (Nat.leb_le _ _)) by lia. reflexivity.
Qed.

Lemma env_of_var t c : ctx_wf c -> env_of (push_var t c) = (false, st_of t) :: env_of c.
Proof.
  intros Hwf. apply nth_error_ext. intros [|i]; rewrite env_of_nth; cbn [push_var vars unguard_points nth_error length option_map].
  - rewrite (proj2 (Nat.leb_gt _ _)); [reflexivity|]. unfold ctx_wf in Hwf. lia.
  - rewrite env_of_nth. destruct (nth_error (vars c) i); cbn [option_map]; [|reflexivity].
    do 2 f_equal. rewrite Nat.add_succ_r. reflexivity.
Qed.

Lemma get_variable_type_spec c i :
  get_variable_type c i =
  match nth_error (env_of c) i with
  | None => Err FreeVariable
  | Some (true, _) => match nth_error (vars c) i with Some t => Ok t | None => Err FreeVariable end
  | Some (false, _) => Err GuardedVariable
  end.
Proof.
  rewrite env_of_nth. unfold get_variable_type. destruct (nth_error (vars c) i); cbn; [|reflexivity].
  destruct (Nat.leb _ _); reflexivity.
Qed.

(** ** Never a panic *)
Lemma seq_go_no_panic inf t l :
  Forall (fun x => inf (snd x) <> Panic) l -> seq_go inf t l <> Panic.
Proof.
  intros H. revert t; induction H as [|[p e] l He Hl IH]; intros t; cbn; [discriminate|].
  cbn in He. destruct (inf e) as [r| | |]; try discriminate; try contradiction.
  destruct (cset_disjoint _ _); [|discriminate].
  specialize (IH (ty_cat t (get_type r))).
  destruct (seq_go inf _ l) as [[? ?]| | |]; try discriminate. contradiction.
Qed.
Lemma alt_go_no_panic inf t l :
  Forall (fun x => inf (snd x) <> Panic) l -> alt_go inf t l <> Panic.
Proof.
  intros H. revert t; induction H as [|[p e] l He Hl IH]; intros t; cbn; [discriminate|].
  cbn in He. destruct (inf e) as [r| | |]; try discriminate; try contradiction.
  destruct (_ && _); [discriminate|]. destruct (cset_disjoint _ _); [|discriminate].
  specialize (IH (ty_alt t (get_type r))).
  destruct (alt_go inf _ l) as [[? ?]| | |]; try discriminate. contradiction.
Qed.
Lemma fix_loop_no_panic step n t : (forall t, step t <> Panic) -> fix_loop step n t <> Panic.
Proof.
  intros H. revert t; induction n as [|n IH]; intros t; cbn; [discriminate|].
  specialize (H t). destruct (step t) as [r| | |]; try discriminate; try contradiction.
  destruct (ty_eqb _ _); [discriminate|]. apply IH.
Qed.

Definition lam_body (e : nexpr) : nexpr := match e with ELam _ _ b => b | _ => e end.

(** Induction in which the hypothesis for a fix is about the body of the lambda under it. *)
Lemma nexpr_ind_fix (P : nexpr -> Prop) :
  (forall a, P (EEps a)) -> (forall a s, P (ELit a s)) ->
  (forall a f r, P f -> Forall (fun x => P (snd x)) r -> P (ECat a f r)) ->
  (forall a f r, P f -> Forall (fun x => P (snd x)) r -> P (EAlt a f r)) ->
  (forall a ai ns b, P b -> P (EFix a (ELam ai ns b))) ->
  (forall a i, (forall ai ns b, i <> ELam ai ns b) -> P (EFix a i)) ->
  (forall a i, P (EVar a i)) -> (forall a o l, P (ECall a o l)) ->
  (forall a n i, P (ELam a n i)) -> (forall a n x y, P (ELet a n x y)) ->
  forall e, P e.
Proof.
  intros H1 H2 H3 H4 H5 H6 H7 H8 H9 H10 e.
  enough (P e /\ P (lam_body e)) by tauto.
  induction e using nexpr_ind'; cbn [lam_body]; try (split; auto; fail).
  - destruct IHe as [IHe _].
    assert (Forall (fun x : span * nexpr => P (snd x)) r) by (eapply Forall_impl; [|eassumption]; cbn; tauto).
    split; auto.
  - destruct IHe as [IHe _].
    assert (Forall (fun x : span * nexpr => P (snd x)) r) by (eapply Forall_impl; [|eassumption]; cbn; tauto).
    split; auto.
  - destruct IHe as [IHe IHb].
    assert (P (EFix a e)).
    { destruct e; try (apply H6; discriminate). apply H5. exact IHb. }
    auto.
  - destruct IHe as [IHe _]. auto.
Qed.

Lemma infer_no_panic e : forall fuel nm c, infer fuel nm c e <> Panic.
Proof.
  induction e using nexpr_ind_fix; intros fuel nm c; try (cbn; discriminate).
  - rewrite infer_cat. specialize (IHe fuel (e_name e) c).
    destruct (infer fuel (e_name e) c e) as [t| | |]; try discriminate; try contradiction.
    destruct (nullable _); [discriminate|].
    pose proof (seq_go_no_panic (fun e => infer fuel (e_name e) (push_unguard c) e) (get_type t) r) as Hs.
    destruct (seq_go _ _ _) as [[? ?]| | |]; try discriminate.
    exfalso. apply Hs; [|reflexivity]. eapply Forall_impl; [|eassumption]. cbn. auto.
  - rewrite infer_alt. specialize (IHe fuel (e_name e) c).
    destruct (infer fuel (e_name e) c e) as [t| | |]; try discriminate; try contradiction.
    pose proof (alt_go_no_panic (fun e => infer fuel (e_name e) c e) (get_type t) r) as Hs.
    destruct (alt_go _ _ _) as [[? ?]| | |]; try discriminate.
    exfalso. apply Hs; [|reflexivity]. eapply Forall_impl; [|eassumption]. cbn. auto.
  - rewrite infer_fix.
    destruct (fix_loop _ _ _) eqn:E; try discriminate.
    exfalso. revert E. apply fix_loop_no_panic. auto.
  - rewrite infer_fix. destruct e; try discriminate. exfalso. eapply H; reflexivity.
  - cbn. destruct (get_variable_type c i) eqn:E; try discriminate.
    rewrite get_variable_type_spec in E. destruct (nth_error (env_of c) i) as [[[] ?]|]; try discriminate.
    destruct (nth_error _ _); discriminate.
Qed.

(** ** More fuel does not change the answer *)
Lemma seq_go_fuel inf inf' t l :
  Forall (fun x => inf (snd x) <> OutOfFuel -> inf' (snd x) = inf (snd x)) l ->
  seq_go inf t l <> OutOfFuel -> seq_go inf' t l = seq_go inf t l.
Proof.
  intros H. revert t; induction H as [|[p e] l He Hl IH]; intros t; cbn; [reflexivity|].
  cbn in He. destruct (inf e) as [r| | |]; intros Hn; try (rewrite He by discriminate; reflexivity); [|congruence].
  rewrite He by discriminate.
  destruct (cset_disjoint _ _); [|reflexivity].
  specialize (IH (ty_cat t (get_type r))).
  destruct (seq_go inf _ l) as [[? ?]| | |]; try (rewrite IH by discriminate; reflexivity). congruence.
Qed.
Lemma alt_go_fuel inf inf' t l :
  Forall (fun x => inf (snd x) <> OutOfFuel -> inf' (snd x) = inf (snd x)) l ->
  alt_go inf t l <> OutOfFuel -> alt_go inf' t l = alt_go inf t l.
Proof.
  intros H. revert t; induction H as [|[p e] l He Hl IH]; intros t; cbn; [reflexivity|].
  cbn in He. destruct (inf e) as [r| | |]; intros Hn; try (rewrite He by discriminate; reflexivity); [|congruence].
  rewrite He by discriminate.
  destruct (_ && _); [reflexivity|].
  destruct (cset_disjoint _ _); [|reflexivity].
  specialize (IH (ty_alt t (get_type r))).
  destruct (alt_go inf _ l) as [[? ?]| | |]; try (rewrite IH by discriminate; reflexivity). congruence.
Qed.
Lemma fix_loop_fuel step step' n n' t :
  (forall t, step t <> OutOfFuel -> step' t = step t) -> n <= n' ->
  fix_loop step n t <> OutOfFuel -> fix_loop step' n' t = fix_loop step n t.
Proof.
  intros H. revert n' t; induction n as [|n IH]; intros n' t Hle; cbn; [congruence|].
  destruct n' as [|n']; [lia|]. cbn. specialize (H t).
  destruct (step t) as [r| | |]; intros Hn; try (rewrite H by discriminate; reflexivity); [|congruence].
  rewrite H by discriminate. destruct (ty_eqb _ _); [reflexivity|]. apply IH; [lia|exact Hn].
Qed.

Lemma infer_fuel_mono e : forall fuel fuel' nm c, fuel <= fuel' -> infer fuel nm c e <> OutOfFuel ->
  infer fuel' nm c e = infer fuel nm c e.
Proof.
  induction e using nexpr_ind_fix; intros fuel fuel' nm c Hle; try (cbn; reflexivity).
  - rewrite !infer_cat. specialize (IHe fuel fuel' (e_name e) c Hle).
    destruct (infer fuel (e_name e) c e) as [t| | |]; intros Hn; try (rewrite IHe by discriminate; reflexivity); [|congruence].
    rewrite IHe by discriminate.
    destruct (nullable _); [reflexivity|].
    rewrite (seq_go_fuel (fun e => infer fuel (e_name e) (push_unguard c) e)); [reflexivity| |].
    + eapply Forall_impl; [|eassumption]. cbn. auto.
    + intros E. rewrite E in Hn. congruence.
  - rewrite !infer_alt. specialize (IHe fuel fuel' (e_name e) c Hle).
    destruct (infer fuel (e_name e) c e) as [t| | |]; intros Hn; try (rewrite IHe by discriminate; reflexivity); [|congruence].
    rewrite IHe by discriminate.
    rewrite (alt_go_fuel (fun e => infer fuel (e_name e) c e)); [reflexivity| |].
    + eapply Forall_impl; [|eassumption]. cbn. auto.
    + intros E. rewrite E in Hn. congruence.
  - rewrite !infer_fix. intros Hn.
    rewrite (fix_loop_fuel (fun last => infer fuel (merge_all [a_name ai; e_name e; nm]) (push_var last c) e)
               _ fuel fuel'); auto.
    intros E. rewrite E in Hn. congruence.
  - rewrite !infer_fix. destruct e; try reflexivity. exfalso. eapply H; reflexivity.
Qed.

(** ** Soundness *)
Lemma seq_go_sound inf G l ts t t' s :
  Forall (fun x => forall r, inf (snd x) = Ok r -> exists g s, gram_of (snd x) = Some g /\ gram_of_t r = g /\ typed G g s /\ st_eq s (st_of (get_type r))) l ->
  st_eq s (st_of t) -> nullable t = false ->
  seq_go inf t l = Ok (ts, t') ->
  exists gs s', all_some (map (fun x => gram_of (snd x)) l) = Some gs /\ map gram_of_t ts = gs
                /\ typed_seq G s gs s' /\ st_eq s' (st_of t').
Proof.
  intros H. revert t s ts t'; induction H as [|[p e] l He Hl IH]; intros t s ts t' Hs Hnull E; cbn in E.
  - injection E as <- <-. exists [], s. repeat split; try apply Hs. constructor.
  - cbn in He. destruct (inf e) as [r| | |]; try discriminate.
    destruct (cset_disjoint _ _) eqn:Hd; [|discriminate].
    destruct (seq_go inf _ l) as [[ts1 t1]| | |] eqn:E1; try discriminate. injection E as <- <-.
    destruct (He r eq_refl) as (g & s1 & Hg & Hgt & Ht & Hs1).
    destruct (IH (ty_cat t (get_type r)) (st_cat s s1) ts1 t1) as (gs & s' & Hgs & Hgts & Hts & Hs'); auto.
    + eapply st_eq_trans; [apply st_cat_eq; eassumption|]. apply st_eq_sym, st_of_cat.
    + cbn. rewrite Hnull. reflexivity.
    + exists (g :: gs), s'. cbn. rewrite Hg, Hgs, Hgt, Hgts. repeat split; try apply Hs'.
      econstructor; eauto. rewrite cset_disjoint_spec in Hd.
      destruct Hs as [(A1 & A2 & A3) _], Hs1 as [(B1 & B2 & B3) _]. split.
      * intros HH. apply A1 in HH. cbn in HH. congruence.
      * intros c X Y. apply (Hd c); [apply A3; exact X|apply B2; exact Y].
Qed.

Lemma alt_go_sound inf G l ts t t' s :
  Forall (fun x => forall r, inf (snd x) = Ok r -> exists g s, gram_of (snd x) = Some g /\ gram_of_t r = g /\ typed G g s /\ st_eq s (st_of (get_type r))) l ->
  st_eq s (st_of t) ->
  alt_go inf t l = Ok (ts, t') ->
  exists gs s', all_some (map (fun x => gram_of (snd x)) l) = Some gs /\ map gram_of_t ts = gs
                /\ typed_branches G s gs s' /\ st_eq s' (st_of t').
Proof.
  intros H. revert t s ts t'; induction H as [|[p e] l He Hl IH]; intros t s ts t' Hs E; cbn in E.
  - injection E as <- <-. exists [], s. repeat split; try apply Hs. constructor.
  - cbn in He. destruct (inf e) as [r| | |]; try discriminate.
    destruct (_ && _) eqn:Hnn; [discriminate|].
    destruct (cset_disjoint _ _) eqn:Hd; [|discriminate].
    destruct (alt_go inf _ l) as [[ts1 t1]| | |] eqn:E1; try discriminate. injection E as <- <-.
    destruct (He r eq_refl) as (g & s1 & Hg & Hgt & Ht & Hs1).
    destruct (IH (ty_alt t (get_type r)) (st_alt s s1) ts1 t1) as (gs & s' & Hgs & Hgts & Hts & Hs'); auto.
    + eapply st_eq_trans; [apply st_alt_eq; eassumption|]. apply st_eq_sym, st_of_alt.
    + exists (g :: gs), s'. cbn. rewrite Hg, Hgs, Hgt, Hgts. repeat split; try apply Hs'.
      econstructor; eauto. rewrite cset_disjoint_spec in Hd.
      destruct Hs as [(A1 & A2 & A3) _], Hs1 as [(B1 & B2 & B3) _]. split.
      * intros [X Y]. apply A1 in X. apply B1 in Y. cbn in X, Y. rewrite X, Y in Hnn. discriminate.
      * intros c X Y. apply (Hd c); [apply A2; exact X|apply B2; exact Y].
Qed.

Lemma fix_loop_ok step n t r : fix_loop step n t = Ok r -> step (get_type r) = Ok r.
Proof.
  revert t; induction n as [|n IH]; intros t; cbn; [discriminate|].
  destruct (step t) as [r'| | |] eqn:E; try discriminate.
  destruct (ty_eqb t (get_type r')) eqn:Et.
  - intros H. injection H as ->. apply ty_eqb_eq in Et. rewrite <- Et. exact E.
  - apply IH.
Qed.

Theorem infer_sound e : forall fuel nm c r, ctx_wf c -> infer fuel nm c e = Ok r ->
  exists g s, gram_of e = Some g /\ gram_of_t r = g /\ typed (env_of c) g s /\ st_eq s (st_of (get_type r)).
Proof.
  induction e using nexpr_ind_fix; intros fuel nm c t Hwf E; try discriminate.
  - cbn in E. injection E as <-. exists GEps, st_eps. repeat split; try apply st_of_eps. constructor.
  - cbn in E. injection E as <-. exists (GLit s), (st_lit s). repeat split; try apply st_of_str. constructor.
  - rewrite infer_cat in E.
    destruct (infer fuel (e_name e) c e) as [f'| | |] eqn:Ef; try discriminate.
    destruct (nullable (get_type f')) eqn:Hn; [discriminate|].
    destruct (seq_go _ _ _) as [[ts t']| | |] eqn:Es; try discriminate. injection E as <-.
    destruct (IHe _ _ _ _ Hwf Ef) as (g & s & Hg & Hgt & Ht & Hs).
    eapply (seq_go_sound _ (unguard (env_of c))) in Es; [|clear Es|exact Hs|exact Hn].
    + destruct Es as (gs & s' & Hgs & Hgts & Hts & Hs').
      exists (GCat (g :: gs)), s'. cbn. rewrite Hg, Hgs, Hgt, Hgts. repeat split; try apply Hs'.
      econstructor; eauto. intros HH. apply Hs in HH. cbn in HH. congruence.
    + eapply Forall_impl; [|eassumption]. cbn. intros x Hx r' Hr'.
      rewrite <- env_of_unguard. eapply Hx; eauto. apply ctx_wf_unguard.
  - rewrite infer_alt in E.
    destruct (infer fuel (e_name e) c e) as [f'| | |] eqn:Ef; try discriminate.
    destruct (alt_go _ _ _) as [[ts t']| | |] eqn:Es; try discriminate. injection E as <-.
    destruct (IHe _ _ _ _ Hwf Ef) as (g & s & Hg & Hgt & Ht & Hs).
    eapply (alt_go_sound _ (env_of c)) in Es; [|clear Es|exact Hs].
    + destruct Es as (gs & s' & Hgs & Hgts & Hts & Hs').
      exists (GAlt (g :: gs)), s'. cbn. rewrite Hg, Hgs, Hgt, Hgts. repeat split; try apply Hs'.
      econstructor; eauto.
    + eapply Forall_impl; [|eassumption]. cbn. intros x Hx r' Hr'. eapply Hx; eauto.
  - rewrite infer_fix in E.
    destruct (fix_loop _ _ _) as [r| | |] eqn:Ef; try discriminate. injection E as <-.
    apply fix_loop_ok in Ef.
    apply IHe in Ef; [|apply ctx_wf_var; exact Hwf].
    destruct Ef as (g & s & Hg & Hgt & Ht & Hs).
    exists (GFix g), (st_of (get_type r)). cbn. rewrite Hg, Hgt. repeat split; auto.
    rewrite env_of_var in Ht by exact Hwf. econstructor; eauto.
  - rewrite infer_fix in E. destruct e; try discriminate. exfalso. eapply H; reflexivity.
  - cbn in E. rewrite get_variable_type_spec, env_of_nth in E.
    destruct (nth_error (vars c) i) as [t'|] eqn:Ei; cbn in E; [|discriminate].
    destruct (Nat.leb _ _) eqn:El; [|discriminate]. injection E as <-.
    exists (GVar i), (st_of t'). repeat split; auto. constructor.
    rewrite env_of_nth, Ei. cbn. rewrite El. reflexivity.
Qed.

(** ** Completeness and leastness *)
Definition env_le (G G' : tenv) : Prop :=
  Forall2 (fun a b => (fst b = true -> fst a = true) /\ st_le (snd a) (snd b)) G G'.

Lemma env_le_refl G : env_le G G.
Proof. unfold env_le. induction G; constructor; auto. split; auto. apply st_le_refl. Qed.
Lemma env_le_unguard G G' : env_le G G' -> env_le (unguard G) (unguard G').
Proof. unfold env_le, unguard. induction 1 as [|a b G G' [H1 H2] H IH]; constructor; auto. Qed.

(** [e] in a smaller environment than a derivation. *)
Definition below (x : res texpr type_error) (s : stype) : Prop :=
  match x with
  | Ok r => st_le (st_of (get_type r)) s
  | OutOfFuel => True
  | _ => False
  end.

Lemma seq_go_complete inf l gs G s s' t :
  Forall (fun x => forall g s, gram_of (snd x) = Some g -> typed G g s -> below (inf (snd x)) s) l ->
  all_some (map (fun x => gram_of (snd x)) l) = Some gs ->
  typed_seq G s gs s' -> st_le (st_of t) s ->
  match seq_go inf t l with
  | Ok (_, t') => st_le (st_of t') s'
  | OutOfFuel => True
  | _ => False
  end.
Proof.
  intros H. revert gs t s; induction H as [|[p e] l He Hl IH]; intros gs t s Hgs Hty Hle; cbn [map all_some] in Hgs.
  - injection Hgs as <-. inversion Hty; subst. exact Hle.
  - cbn in He. cbn [snd] in Hgs. destruct (gram_of e) as [g|] eqn:Eg; [|discriminate].
    cbn in Hgs. destruct (all_some _) as [gs'|] eqn:Egs; [|discriminate]. injection Hgs as <-.
    inversion Hty as [|? ? ? ? s1 ? Hg Hsep Hrest]; subst.
    specialize (He g s1 eq_refl Hg). cbn [seq_go].
    destruct (inf e) as [r| | |]; cbn in He; auto.
    assert (Hsep' : separable (st_of t) (st_of (get_type r))) by (eapply separable_anti; eauto).
    rewrite (proj2 (cset_disjoint_spec _ _)); [|exact (proj2 Hsep')].
    specialize (IH gs' (ty_cat t (get_type r)) (st_cat s s1) eq_refl Hrest).
    destruct (seq_go inf _ l) as [[ts t']| | |]; auto;
      apply IH; (eapply st_le_trans; [apply st_of_cat|apply st_cat_mono; assumption]).
Qed.

Lemma alt_go_complete inf l gs G s s' t :
  Forall (fun x => forall g s, gram_of (snd x) = Some g -> typed G g s -> below (inf (snd x)) s) l ->
  all_some (map (fun x => gram_of (snd x)) l) = Some gs ->
  typed_branches G s gs s' -> st_le (st_of t) s ->
  match alt_go inf t l with
  | Ok (_, t') => st_le (st_of t') s'
  | OutOfFuel => True
  | _ => False
  end.
Proof.
  intros H. revert gs t s; induction H as [|[p e] l He Hl IH]; intros gs t s Hgs Hty Hle; cbn [map all_some] in Hgs.
  - injection Hgs as <-. inversion Hty; subst. exact Hle.
  - cbn in He. cbn [snd] in Hgs. destruct (gram_of e) as [g|] eqn:Eg; [|discriminate].
    cbn in Hgs. destruct (all_some _) as [gs'|] eqn:Egs; [|discriminate]. injection Hgs as <-.
    inversion Hty as [|? ? ? ? s1 ? Hg Hsep Hrest]; subst.
    specialize (He g s1 eq_refl Hg). cbn [alt_go].
    destruct (inf e) as [r| | |]; cbn in He; auto.
    assert (Hsep' : apart (st_of t) (st_of (get_type r))) by (eapply apart_anti; eauto).
    destruct (_ && _) eqn:Hnn.
    { exfalso. apply (proj1 Hsep'). apply andb_true_iff in Hnn. exact Hnn. }
    rewrite (proj2 (cset_disjoint_spec _ _)); [|exact (proj2 Hsep')].
    specialize (IH gs' (ty_alt t (get_type r)) (st_alt s s1) eq_refl Hrest).
    destruct (alt_go inf _ l) as [[ts t']| | |]; auto;
      apply IH; (eapply st_le_trans; [apply st_of_alt|apply st_alt_mono; assumption]).
Qed.

Lemma fix_loop_below step n t s :
  (forall t, st_le (st_of t) s -> below (step t) s) -> st_le (st_of t) s -> below (fix_loop step n t) s.
Proof.
  intros H. revert t; induction n as [|n IH]; intros t Ht; cbn; [exact I|].
  specialize (H t Ht). destruct (step t) as [r| | |]; cbn in H; auto.
  destruct (ty_eqb _ _); [exact H|]. apply IH. exact H.
Qed.

Theorem infer_complete e : forall fuel nm c g G s, ctx_wf c -> gram_of e = Some g ->
  typed G g s -> env_le (env_of c) G -> below (infer fuel nm c e) s.
Proof.
  induction e using nexpr_ind_fix; intros fuel nm c g G s' Hwf Hg Hty HG; try discriminate.
  - injection Hg as <-. inversion Hty; subst. apply st_of_eps.
  - injection Hg as <-. inversion Hty; subst. apply st_of_str.
  - rewrite infer_cat. cbn in Hg. destruct (gram_of e) as [g1|] eqn:Eg; [|discriminate].
    destruct (all_some _) as [gs|] eqn:Egs; [|discriminate]. injection Hg as <-.
    inversion Hty as [| | |? ? ? t1 ? Hf Hnull Hrest| |]; subst.
    specialize (IHe fuel (e_name e) c g1 G t1 Hwf eq_refl Hf HG).
    destruct (infer fuel (e_name e) c e) as [f'| | |]; cbn in IHe; try exact IHe.
    destruct (nullable (get_type f')) eqn:Hn.
    { apply Hnull. apply IHe. exact Hn. }
    pose proof (seq_go_complete (fun e => infer fuel (e_name e) (push_unguard c) e) r gs (unguard G) t1 s' (get_type f')) as Hs.
    assert (Hs' : match seq_go (fun e => infer fuel (e_name e) (push_unguard c) e) (get_type f') r with
                  | Ok (_, t') => st_le (st_of t') s' | OutOfFuel => True | _ => False end).
    { apply Hs; auto. eapply Forall_impl; [|eassumption]. cbn. intros x Hx g' sx Hg' Hsx.
      eapply Hx; eauto; [apply ctx_wf_unguard|]. rewrite env_of_unguard. apply env_le_unguard. exact HG. }
    destruct (seq_go _ _ _) as [[ts t']| | |]; auto.
  - rewrite infer_alt. cbn in Hg. destruct (gram_of e) as [g1|] eqn:Eg; [|discriminate].
    destruct (all_some _) as [gs|] eqn:Egs; [|discriminate]. injection Hg as <-.
    inversion Hty as [| | | |? ? ? t1 ? Hf Hrest|]; subst.
    specialize (IHe fuel (e_name e) c g1 G t1 Hwf eq_refl Hf HG).
    destruct (infer fuel (e_name e) c e) as [f'| | |]; cbn in IHe; try exact IHe.
    pose proof (alt_go_complete (fun e => infer fuel (e_name e) c e) r gs G t1 s' (get_type f')) as Hs.
    assert (Hs' : match alt_go (fun e => infer fuel (e_name e) c e) (get_type f') r with
                  | Ok (_, t') => st_le (st_of t') s' | OutOfFuel => True | _ => False end).
    { apply Hs; auto. eapply Forall_impl; [|eassumption]. cbn. intros x Hx g' sx Hg' Hsx.
      eapply Hx; eauto. }
    destruct (alt_go _ _ _) as [[ts t']| | |]; auto.
  - rewrite infer_fix. cbn in Hg. destruct (gram_of e) as [g1|] eqn:Eg; [|discriminate].
    cbn in Hg. injection Hg as <-.
    inversion Hty as [| | | | |? ? ? s1 Hb Heq]; subst.
    pose proof (fix_loop_below (fun last => infer fuel (merge_all [a_name ai; e_name e; nm]) (push_var last c) e)
                  fuel ty_default s') as Hl.
    assert (Hl' : below (fix_loop (fun last => infer fuel (merge_all [a_name ai; e_name e; nm]) (push_var last c) e)
                  fuel ty_default) s').
    { apply Hl; [|apply st_of_default_le]. intros t Ht.
      assert (Hb' : below (infer fuel (merge_all [a_name ai; e_name e; nm]) (push_var t c) e) s1).
      { eapply IHe; eauto; [apply ctx_wf_var; exact Hwf|]. rewrite env_of_var by exact Hwf.
        constructor; [split; [auto|exact Ht]|exact HG]. }
      destruct (infer _ _ _ e); cbn in *; auto. eapply st_le_trans; [exact Hb'|apply Heq]. }
    destruct (fix_loop _ _ _); cbn in *; auto.
  - cbn in Hg. destruct e; try discriminate. exfalso. eapply H; reflexivity.
  - cbn in Hg. injection Hg as <-. inversion Hty as [| |? ? ? Hn| | |]; subst.
    cbn. rewrite get_variable_type_spec.
    assert (exists b t, nth_error (env_of c) i = Some (b, t) /\ b = true /\ st_le t s') as (b & t & Hi & -> & Hle).
    { clear - HG Hn. revert i Hn. induction HG as [|[b t] [b' t'] G1 G2 [H1 H2] H IH]; intros [|i] Hn; try discriminate.
      - cbn in Hn. injection Hn as -> ->. cbn in *. eauto 6.
      - apply IH. exact Hn. }
    rewrite Hi. rewrite env_of_nth in Hi. destruct (nth_error (vars c) i) as [t0|]; [|discriminate].
    cbn in Hi. injection Hi as _ <-. exact Hle.
Qed.

(** ** Termination *)
Definition ctx_ok (S : list char) (c : tctx) : Prop := Forall (fun t => ty_ok t /\ ty_in S t) (vars c).

Definition res_ok (S : list char) (x : res texpr type_error) : Prop :=
  forall r, x = Ok r -> ty_ok (get_type r) /\ ty_in S (get_type r).

Lemma seq_go_ok inf S l t ts t' :
  Forall (fun x => res_ok S (inf (snd x))) l -> ty_ok t -> ty_in S t ->
  seq_go inf t l = Ok (ts, t') -> ty_ok t' /\ ty_in S t'.
Proof.
  intros H. revert t ts t'; induction H as [|[p e] l He Hl IH]; intros t ts t' H1 H2; cbn.
  - intros E. injection E as _ <-. auto.
  - cbn in He. destruct (inf e) as [r| | |]; try discriminate. destruct (He r eq_refl) as [H3 H4].
    destruct (cset_disjoint _ _); [|discriminate].
    destruct (seq_go inf _ l) as [[? ?]| | |] eqn:E; try discriminate.
    intros E'. injection E' as _ <-. eapply IH; [| |exact E]; [apply ty_ok_cat|apply ty_in_cat]; auto.
Qed.
Lemma alt_go_ok inf S l t ts t' :
  Forall (fun x => res_ok S (inf (snd x))) l -> ty_ok t -> ty_in S t ->
  alt_go inf t l = Ok (ts, t') -> ty_ok t' /\ ty_in S t'.
Proof.
  intros H. revert t ts t'; induction H as [|[p e] l He Hl IH]; intros t ts t' H1 H2; cbn.
  - intros E. injection E as _ <-. auto.
  - cbn in He. destruct (inf e) as [r| | |]; try discriminate. destruct (He r eq_refl) as [H3 H4].
    destruct (_ && _); [discriminate|]. destruct (cset_disjoint _ _); [|discriminate].
    destruct (alt_go inf _ l) as [[? ?]| | |] eqn:E; try discriminate.
    intros E'. injection E' as _ <-. eapply IH; [| |exact E]; [apply ty_ok_alt|apply ty_in_alt]; auto.
Qed.
Lemma fix_loop_res_ok step S n t :
  (forall t, ty_ok t -> ty_in S t -> res_ok S (step t)) -> ty_ok t -> ty_in S t ->
  res_ok S (fix_loop step n t).
Proof.
  intros H. revert t; induction n as [|n IH]; intros t H1 H2 r; cbn; [discriminate|].
  specialize (H t H1 H2). destruct (step t) as [r'| | |]; try discriminate.
  destruct (H r' eq_refl) as [H3 H4].
  destruct (ty_eqb _ _); [intros E; injection E as <-; auto|]. apply IH; auto.
Qed.

Definition rest_chars (r : list (span * nexpr)) : list char := flat_map (fun x => lit_chars (snd x)) r.

Lemma rest_chars_In x r : In x r -> incl (lit_chars (snd x)) (rest_chars r).
Proof. intros H c Hc. unfold rest_chars. apply in_flat_map. eauto. Qed.

Lemma incl_rest {P : span * nexpr -> Prop} {Q : span * nexpr -> Prop} S r :
  incl (rest_chars r) S -> Forall P r ->
  (forall x, P x -> incl (lit_chars (snd x)) S -> Q x) -> Forall Q r.
Proof.
  intros Hi HP HQ. rewrite Forall_forall in *. intros x Hx. apply HQ; auto.
  eapply incl_tran; [apply rest_chars_In; exact Hx|exact Hi].
Qed.

Lemma infer_ok e : forall fuel nm c S, incl (lit_chars e) S -> ctx_ok S c -> res_ok S (infer fuel nm c e).
Proof.
  induction e using nexpr_ind_fix; intros fuel nm c S Hi Hc t E; try discriminate.
  - cbn in E. injection E as <-. cbn. split; [apply ty_ok_eps|apply ty_in_eps].
  - cbn in E. injection E as <-. cbn. split; [apply ty_ok_str|apply ty_in_str; exact Hi].
  - rewrite infer_cat in E. cbn in Hi. apply incl_app_inv in Hi as [Hi1 Hi2].
    destruct (infer fuel (e_name e) c e) as [f'| | |] eqn:Ef; try discriminate.
    destruct (nullable (get_type f')) eqn:Hn; [discriminate|].
    destruct (seq_go _ _ _) as [[ts t']| | |] eqn:Es; try discriminate. injection E as <-. cbn [get_type].
    destruct (IHe _ _ _ _ Hi1 Hc _ Ef) as [H1 H2].
    eapply seq_go_ok; [|exact H1|exact H2|exact Es].
    eapply incl_rest; [exact Hi2|eassumption|]. cbn. intros x Hx Hix. apply Hx; auto.
  - rewrite infer_alt in E. cbn in Hi. apply incl_app_inv in Hi as [Hi1 Hi2].
    destruct (infer fuel (e_name e) c e) as [f'| | |] eqn:Ef; try discriminate.
    destruct (alt_go _ _ _) as [[ts t']| | |] eqn:Es; try discriminate. injection E as <-. cbn [get_type].
    destruct (IHe _ _ _ _ Hi1 Hc _ Ef) as [H1 H2].
    eapply alt_go_ok; [|exact H1|exact H2|exact Es].
    eapply incl_rest; [exact Hi2|eassumption|]. cbn. intros x Hx Hix. apply Hx; auto.
  - rewrite infer_fix in E.
    destruct (fix_loop _ _ _) as [r| | |] eqn:Ef; try discriminate. injection E as <-. cbn [get_type].
    revert r Ef. apply (fix_loop_res_ok _ S); [|apply ty_ok_default|apply ty_in_default].
    intros t H1 H2. apply IHe; [exact Hi|]. constructor; auto.
  - rewrite infer_fix in E. destruct e; try discriminate. exfalso. eapply H; reflexivity.
  - cbn in E. unfold get_variable_type in E. destruct (nth_error (vars c) i) as [t'|] eqn:Ei; [|discriminate].
    destruct (Nat.leb _ _); [|discriminate]. injection E as <-. cbn [get_type].
    unfold ctx_ok in Hc. rewrite Forall_forall in Hc. apply Hc. eapply nth_error_In; eauto.
Qed.

(** A larger variable type gives a larger body type. *)
Lemma step_mono e fuel nm c t1 t2 r1 r2 : ctx_wf c -> st_le (st_of t1) (st_of t2) ->
  infer fuel nm (push_var t1 c) e = Ok r1 -> infer fuel nm (push_var t2 c) e = Ok r2 ->
  st_le (st_of (get_type r1)) (st_of (get_type r2)).
Proof.
  intros Hwf Hle E1 E2.
  apply infer_sound in E2 as (g & s & Hg & _ & Ht & Hs); [|apply ctx_wf_var; exact Hwf].
  assert (H : below (infer fuel nm (push_var t1 c) e) s).
  { eapply infer_complete; eauto; [apply ctx_wf_var; exact Hwf|].
    rewrite !env_of_var by exact Hwf. constructor; [split; auto|apply env_le_refl]. }
  rewrite E1 in H. cbn in H. eapply st_le_trans; [exact H|apply Hs].
Qed.

Lemma fix_loop_terminates step S n t :
  (forall t, ty_ok t -> ty_in S t -> res_ok S (step t)) ->
  (forall t, ty_ok t -> ty_in S t -> step t <> OutOfFuel) ->
  (forall t1 t2 r1 r2, st_le (st_of t1) (st_of t2) -> step t1 = Ok r1 -> step t2 = Ok r2 ->
     st_le (st_of (get_type r1)) (st_of (get_type r2))) ->
  ty_ok t -> ty_in S t ->
  (forall r, step t = Ok r -> st_le (st_of t) (st_of (get_type r))) ->
  2 * length S + 2 <= n + ty_size t ->
  fix_loop step n t <> OutOfFuel.
Proof.
  intros Hok Hfuel Hmono. revert t; induction n as [|n IH]; intros t H1 H2 Hinc Hn.
  - pose proof (ty_size_bound S t H1 H2). lia.
  - cbn. specialize (Hok t H1 H2) as Hr. specialize (Hfuel t H1 H2).
    destruct (step t) as [r| | |] eqn:E; try discriminate; [|contradiction].
    destruct (ty_eqb t (get_type r)) eqn:Et; [discriminate|].
    destruct (Hr r eq_refl) as [H3 H4]. specialize (Hinc r eq_refl).
    apply IH; auto.
    + intros r' E'. eapply Hmono; eauto.
    + pose proof (ty_size_lt _ _ H1 H3 Hinc Et). lia.
Qed.

Lemma seq_go_terminates inf t l :
  Forall (fun x => inf (snd x) <> OutOfFuel) l -> seq_go inf t l <> OutOfFuel.
Proof.
  intros H. revert t; induction H as [|[p e] l He Hl IH]; intros t; cbn; [discriminate|].
  cbn in He. destruct (inf e) as [r| | |]; try discriminate; try contradiction.
  destruct (cset_disjoint _ _); [|discriminate].
  specialize (IH (ty_cat t (get_type r))).
  destruct (seq_go inf _ l) as [[? ?]| | |]; try discriminate. contradiction.
Qed.
Lemma alt_go_terminates inf t l :
  Forall (fun x => inf (snd x) <> OutOfFuel) l -> alt_go inf t l <> OutOfFuel.
Proof.
  intros H. revert t; induction H as [|[p e] l He Hl IH]; intros t; cbn; [discriminate|].
  cbn in He. destruct (inf e) as [r| | |]; try discriminate; try contradiction.
  destruct (_ && _); [discriminate|]. destruct (cset_disjoint _ _); [|discriminate].
  specialize (IH (ty_alt t (get_type r))).
  destruct (alt_go inf _ l) as [[? ?]| | |]; try discriminate. contradiction.
Qed.

Theorem infer_terminates e : forall fuel nm c S, ctx_wf c -> ctx_ok S c -> incl (lit_chars e) S ->
  2 * length S + 2 <= fuel -> infer fuel nm c e <> OutOfFuel.
Proof.
  induction e using nexpr_ind_fix; intros fuel nm c S Hwf Hc Hi Hf; try (cbn; discriminate).
  - rewrite infer_cat. cbn in Hi. apply incl_app_inv in Hi as [Hi1 Hi2].
    specialize (IHe fuel (e_name e) c S Hwf Hc Hi1 Hf).
    destruct (infer fuel (e_name e) c e) as [f'| | |]; try discriminate; try contradiction.
    destruct (nullable (get_type f')); [discriminate|].
    pose proof (seq_go_terminates (fun e => infer fuel (e_name e) (push_unguard c) e) (get_type f') r) as Hs.
    destruct (seq_go _ _ _) as [[ts t']| | |]; try discriminate. exfalso. apply Hs; [|reflexivity].
    eapply incl_rest; [exact Hi2|eassumption|]. cbn. intros x Hx Hix. apply (Hx fuel (e_name (snd x)) _ S); auto.
    apply ctx_wf_unguard.
  - rewrite infer_alt. cbn in Hi. apply incl_app_inv in Hi as [Hi1 Hi2].
    specialize (IHe fuel (e_name e) c S Hwf Hc Hi1 Hf).
    destruct (infer fuel (e_name e) c e) as [f'| | |]; try discriminate; try contradiction.
    pose proof (alt_go_terminates (fun e => infer fuel (e_name e) c e) (get_type f') r) as Hs.
    destruct (alt_go _ _ _) as [[ts t']| | |]; try discriminate. exfalso. apply Hs; [|reflexivity].
    eapply incl_rest; [exact Hi2|eassumption|]. cbn. intros x Hx Hix. apply (Hx fuel (e_name (snd x)) _ S); auto.
  - rewrite infer_fix. cbn in Hi.
    destruct (fix_loop _ _ _) eqn:Ef; try discriminate. exfalso. revert Ef.
    apply (fix_loop_terminates _ S).
    + intros t H1 H2. apply infer_ok; [exact Hi|]. constructor; auto.
    + intros t H1 H2. apply (IHe _ _ _ S); auto; [apply ctx_wf_var; exact Hwf|]. constructor; auto.
    + intros t1 t2 r1 r2 Hle E1 E2. eapply step_mono; eauto.
    + apply ty_ok_default.
    + apply ty_in_default.
    + intros r _. apply st_of_default_le.
    + lia.
  - rewrite infer_fix. destruct e; try discriminate. exfalso. eapply H; reflexivity.
  - cbn. unfold get_variable_type. destruct (nth_error _ _); [|discriminate]. destruct (Nat.leb _ _); discriminate.
Qed.
