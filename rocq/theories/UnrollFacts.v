(** * UnrollFacts: the type of an unrolled fixed point. *)
From Verif Require Import FixFacts SimpleFacts BetaFacts StepFacts ReduceMore.
From Verif Require Export ReplaceFacts.
From Coq Require Import Lia.

(** Replace variable [k] by [h], which has no free variables. *)
Fixpoint gsub (k : nat) (h : gram) (g : gram) {struct g} : gram :=
  match g with
  | GEps => GEps
  | GLit s => GLit s
  | GCat l => GCat (map (gsub k h) l)
  | GAlt l => GAlt (map (gsub k h) l)
  | GFix g => GFix (gsub (S k) h g)
  | GVar i => match Nat.compare i k with Lt => GVar i | Eq => h | Gt => GVar (i - 1) end
  end.

(** ** Substitution in functions and in grammars *)
Lemma closeds_in n gs : closeds n gs <-> Forall (closed_below n) gs.
Proof. induction gs as [|g gs IH]; cbn; [intuition|]. rewrite IH, Forall_cons_iff. reflexivity. Qed.

Lemma lgram_lren_closed e g : lgram e = Some g -> single e -> forall n r, closed_below n g -> (forall i, i < n -> r i = i) ->
  lgram (lren r e) = Some g.
Proof.
  assert (HL : forall l gs, Forall2 (fun e g => single e -> forall n r, closed_below n g -> (forall i, i < n -> r i = i) -> lgram (lren r e) = Some g) l gs ->
    Forall single l -> forall n r, Forall (closed_below n) gs -> (forall i, i < n -> r i = i) -> each lgram (map (lren r) l) = Some gs).
  { intros l gs H. induction H as [|x y l gs Hx _ IH]; intros Hs n r Hc Hr; [reflexivity|].
    apply Forall_cons_iff in Hs as [Hs1 Hs2]. apply Forall_cons_iff in Hc as [Hc1 Hc2].
    cbn [each map]. rewrite (Hx Hs1 n r Hc1 Hr). specialize (IH Hs2 n r Hc2 Hr). cbn [each] in IH. rewrite IH. reflexivity. }
  revert e g. apply (grammar_ind (fun e g => single e -> forall n r, closed_below n g -> (forall i, i < n -> r i = i) -> lgram (lren r e) = Some g)).
  - reflexivity.
  - reflexivity.
  - intros i _ n r Hc Hr. cbn in *. rewrite Hr by exact Hc. reflexivity.
  - intros l gs _ H Hs n r Hc Hr. apply single_list in Hs. rewrite closed_cat, closeds_in in Hc. cbn [lren lgram]. now rewrite (HL l gs H Hs n r Hc Hr).
  - intros l gs _ H Hs n r Hc Hr. apply single_list in Hs. rewrite closed_alt, closeds_in in Hc. cbn [lren lgram]. now rewrite (HL l gs H Hs n r Hc Hr).
  - intros m b g _ IH [Hs ->] n r Hc Hr. cbn [lren lgram]. rewrite (IH Hs (S n) (upr 1 r)); [reflexivity|exact Hc|].
    intros [|i] Hi; unfold upr; cbn; [reflexivity|]. rewrite Nat.sub_0_r, Hr by lia. reflexivity.
Qed.

Definition replaces (k : nat) (h : gram) (s : nat -> lexpr) : Prop :=
  (forall i, i < k -> s i = LVar i) /\ (lgram (s k) = Some h /\ single (s k)) /\ (forall i, k < i -> s i = LVar (i - 1)).

Lemma replaces_up k h s : closed_below 0 h -> replaces k h s -> replaces (S k) h (ups 1 s).
Proof.
  intros Hc (H1 & [H2 H3] & H4). split; [|split].
  - intros [|i] Hi; unfold ups; cbn; [reflexivity|]. rewrite Nat.sub_0_r, H1 by lia. reflexivity.
  - unfold ups. cbn. rewrite Nat.sub_0_r. split; [|now apply single_lren].
    apply (lgram_lren_closed _ _ H2 H3 0); [exact Hc|]. intros i Hi. lia.
  - intros [|i] Hi; [lia|]. unfold ups; cbn. rewrite Nat.sub_0_r, H4 by lia. cbn [lren]. f_equal. lia.
Qed.

Lemma lgram_lsub e g : lgram e = Some g -> single e -> forall k h s, closed_below 0 h -> replaces k h s ->
  lgram (lsub s e) = Some (gsub k h g).
Proof.
  assert (HL : forall l gs, Forall2 (fun e g => single e -> forall k h s, closed_below 0 h -> replaces k h s -> lgram (lsub s e) = Some (gsub k h g)) l gs ->
    Forall single l -> forall k h s, closed_below 0 h -> replaces k h s -> each lgram (map (lsub s) l) = Some (map (gsub k h) gs)).
  { intros l gs H. induction H as [|x y l gs Hx _ IH]; intros Hs k h s Hc Hr; [reflexivity|].
    apply Forall_cons_iff in Hs as [Hs1 Hs2].
    cbn [each map]. rewrite (Hx Hs1 k h s Hc Hr). specialize (IH Hs2 k h s Hc Hr). cbn [each] in IH. rewrite IH. reflexivity. }
  revert e g. apply (grammar_ind (fun e g => single e -> forall k h s, closed_below 0 h -> replaces k h s -> lgram (lsub s e) = Some (gsub k h g))).
  - reflexivity.
  - reflexivity.
  - intros i _ k h s Hc (H1 & [H2 H3] & H4). cbn. destruct (Nat.compare_spec i k) as [->|Hi|Hi]; [exact H2| |].
    + rewrite H1 by exact Hi. reflexivity.
    + rewrite H4 by exact Hi. reflexivity.
  - intros l gs _ H Hs k h s Hc Hr. apply single_list in Hs. cbn [lsub lgram gsub]. now rewrite (HL l gs H Hs k h s Hc Hr).
  - intros l gs _ H Hs k h s Hc Hr. apply single_list in Hs. cbn [lsub lgram gsub]. now rewrite (HL l gs H Hs k h s Hc Hr).
  - intros m b g _ IH [Hs ->] k h s Hc Hr. cbn [lsub lgram gsub]. rewrite (IH Hs (S k) h (ups 1 s) Hc (replaces_up k h s Hc Hr)). reflexivity.
Qed.

(** ** Typing *)
Theorem typed_subst h t : closed_below 0 h -> typed [] h t ->
  (forall G g s, typed G g s -> forall G1 b G2, G = G1 ++ (b, t) :: G2 -> typed (G1 ++ G2) (gsub (length G1) h g) s) /\
  (forall G s gs s', typed_seq G s gs s' -> forall G1 b G2, G = G1 ++ (b, t) :: G2 -> typed_seq (G1 ++ G2) s (map (gsub (length G1) h) gs) s') /\
  (forall G s gs s', typed_branches G s gs s' -> forall G1 b G2, G = G1 ++ (b, t) :: G2 -> typed_branches (G1 ++ G2) s (map (gsub (length G1) h) gs) s').
Proof.
  intros Hc Ht. apply typed_mutind; intros; subst; try (constructor; fail).
  - cbn [gsub]. destruct (Nat.compare_spec i (length G1)) as [->|Hi|Hi].
    + rewrite nth_error_app2, Nat.sub_diag in e by lia. injection e as _ <-. eapply typed_any_env; eauto.
    + constructor. rewrite nth_error_app1 in * by exact Hi. exact e.
    + constructor. rewrite nth_error_app2 in e by lia. rewrite nth_error_app2 by lia.
      replace (i - length G1) with (S (i - 1 - length G1)) in e by lia. exact e.
  - cbn [gsub map]. econstructor; [eapply H; reflexivity|eassumption|].
    unfold unguard in *. rewrite map_app. specialize (H0 (map (fun x => (true, snd x)) G1) true (map (fun x => (true, snd x)) G2)).
    rewrite map_length in H0. apply H0. rewrite map_app. reflexivity.
  - cbn [gsub map]. econstructor; [eapply H; reflexivity|]. eapply H0; reflexivity.
  - cbn [gsub]. econstructor; [|eassumption]. specialize (H ((false, t0) :: G1) b G2 eq_refl). exact H.
  - cbn [map]. econstructor; [eapply H; reflexivity|eassumption|]. eapply H0; reflexivity.
  - cbn [map]. econstructor; [eapply H; reflexivity|eassumption|]. eapply H0; reflexivity.
Qed.

(** The type inferred for a part with a variable is below every type of the
    part with the variable replaced. *)
Definition above (k : nat) (th : ty) (c : tctx) (G : tenv) : Prop :=
  nth_error (vars c) k = Some th /\
  (forall i t, i < k -> nth_error (vars c) i = Some t -> forall b s, nth_error G i = Some (b, s) -> st_le (st_of t) s) /\
  (forall i t, k < i -> nth_error (vars c) i = Some t -> forall b s, nth_error G (i - 1) = Some (b, s) -> st_le (st_of t) s).

Lemma above_unguard k th c G : above k th c G -> above k th (push_unguard c) (unguard G).
Proof.
  intros (H1 & H2 & H3). split; [exact H1|]. unfold unguard. split; intros i t Hi Ht b s Hs; rewrite nth_error_map in Hs.
  - destruct (nth_error G i) as [[b' s']|] eqn:E; [|discriminate]. injection Hs as _ <-. eapply H2; eauto.
  - destruct (nth_error G (i - 1)) as [[b' s']|] eqn:E; [|discriminate]. injection Hs as _ <-. eapply H3; eauto.
Qed.
Lemma above_push k th c G t b s : above k th c G -> st_le (st_of t) s -> above (S k) th (push_var t c) ((b, s) :: G).
Proof.
  intros (H1 & H2 & H3) Hle. split; [exact H1|]. split.
  - intros [|i] t' Hi Ht b' s' Hs; cbn in *.
    + injection Ht as <-. injection Hs as _ <-. exact Hle.
    + eapply (H2 i); eauto. lia.
  - intros [|i] t' Hi Ht b' s' Hs; [lia|]. cbn in Ht. cbn [Nat.sub] in Hs. rewrite Nat.sub_0_r in Hs.
    destruct i as [|i]; [lia|]. cbn [nth_error] in Hs. eapply (H3 (S i)); eauto; [lia|].
    cbn [Nat.sub]. rewrite Nat.sub_0_r. exact Hs.
Qed.

Lemma infer_least_subst h th : (forall G s, typed G h s -> st_le (st_of th) s) ->
  forall e fuel nm c r g G s k, infer fuel nm c e = Ok r -> gram_of e = Some g -> above k th c G ->
  typed G (gsub k h g) s -> st_le (st_of (get_type r)) s.
Proof.
  intros Hh. induction e using nexpr_ind_fix; intros fuel nm c x g G sx k E Hg HA Ht; try discriminate.
  - cbn in E, Hg. injection E as <-. injection Hg as <-. inversion Ht; subst. apply st_of_eps.
  - cbn in E, Hg. injection E as <-. injection Hg as <-. inversion Ht; subst. apply st_of_str.
  - rewrite infer_cat in E. cbn in Hg. destruct (gram_of e) as [g1|] eqn:Eg; [|discriminate].
    destruct (all_some _) as [gs|] eqn:Egs; [|discriminate]. injection Hg as <-.
    destruct (infer fuel (e_name e) c e) as [f'| | |] eqn:Ef; try discriminate.
    destruct (nullable (get_type f')) eqn:Hn; [discriminate|].
    destruct (seq_go _ _ _) as [[ts t']| | |] eqn:Es; try discriminate. injection E as <-. cbn [get_type].
    cbn [gsub map] in Ht. inversion Ht as [| | |? ? ? t1 ? Hf Hnull Hrest| |]; subst.
    pose proof (IHe _ _ _ _ _ _ _ _ Ef eq_refl HA Hf) as Hle. apply above_unguard in HA.
    clear Ef Hf Hnull Hn Ht IHe. revert gs Egs ts t' t1 Hle Hrest Es. generalize (get_type f') as t0.
    induction H as [|[p e1] l He Hl IH]; intros t0 gs Egs ts t' t1 Hle Hrest Es; cbn in Egs, Es.
    + injection Egs as <-. injection Es as _ <-. inversion Hrest; subst. exact Hle.
    + cbn [snd] in He. destruct (gram_of e1) as [g2|] eqn:E2; [|discriminate]. cbn in Egs.
      destruct (all_some _) as [gs'|] eqn:Egs'; [|discriminate]. injection Egs as <-.
      destruct (infer fuel (e_name e1) (push_unguard c) e1) as [r1| | |] eqn:E1; try discriminate.
      destruct (cset_disjoint _ _); [|discriminate].
      destruct (seq_go _ (ty_cat _ _) l) as [[ts1 t3]| | |] eqn:Es1; try discriminate. injection Es as _ <-.
      cbn [map] in Hrest. inversion Hrest as [|? ? ? ? s1 ? Hg1 Hsep Hrest']; subst.
      eapply (IH (ty_cat t0 (get_type r1))); [reflexivity| |exact Hrest'|exact Es1].
      eapply st_le_trans; [apply st_of_cat|apply st_cat_mono; [exact Hle|]]. eapply He; eauto.
  - rewrite infer_alt in E. cbn in Hg. destruct (gram_of e) as [g1|] eqn:Eg; [|discriminate].
    destruct (all_some _) as [gs|] eqn:Egs; [|discriminate]. injection Hg as <-.
    destruct (infer fuel (e_name e) c e) as [f'| | |] eqn:Ef; try discriminate.
    destruct (alt_go _ _ _) as [[ts t']| | |] eqn:Es; try discriminate. injection E as <-. cbn [get_type].
    cbn [gsub map] in Ht. inversion Ht as [| | | |? ? ? t1 ? Hf Hrest|]; subst.
    pose proof (IHe _ _ _ _ _ _ _ _ Ef eq_refl HA Hf) as Hle.
    clear Ef Hf Ht IHe. revert gs Egs ts t' t1 Hle Hrest Es. generalize (get_type f') as t0.
    induction H as [|[p e1] l He Hl IH]; intros t0 gs Egs ts t' t1 Hle Hrest Es; cbn in Egs, Es.
    + injection Egs as <-. injection Es as _ <-. inversion Hrest; subst. exact Hle.
    + cbn [snd] in He. destruct (gram_of e1) as [g2|] eqn:E2; [|discriminate]. cbn in Egs.
      destruct (all_some _) as [gs'|] eqn:Egs'; [|discriminate]. injection Egs as <-.
      destruct (infer fuel (e_name e1) c e1) as [r1| | |] eqn:E1; try discriminate.
      destruct (_ && _); [discriminate|]. destruct (cset_disjoint _ _); [|discriminate].
      destruct (alt_go _ (ty_alt _ _) l) as [[ts1 t3]| | |] eqn:Es1; try discriminate. injection Es as _ <-.
      cbn [map] in Hrest. inversion Hrest as [|? ? ? ? s1 ? Hg1 Hsep Hrest']; subst.
      eapply (IH (ty_alt t0 (get_type r1))); [reflexivity| |exact Hrest'|exact Es1].
      eapply st_le_trans; [apply st_of_alt|apply st_alt_mono; [exact Hle|]]. eapply He; eauto.
  - rewrite infer_fix in E. cbn in Hg. destruct (gram_of e) as [g1|] eqn:Eg; [|discriminate]. injection Hg as <-.
    destruct (fix_loop _ _ _) as [r0| | |] eqn:Ef; try discriminate. injection E as <-. cbn [get_type].
    cbn [gsub] in Ht. inversion Ht as [| | | | |? ? ? s1 Hb Heq]; subst.
    assert (Hstep : forall t r1, st_le (st_of t) sx -> infer fuel (merge_all [a_name ai; e_name e; nm]) (push_var t c) e = Ok r1 ->
               st_le (st_of (get_type r1)) sx).
    { intros t r1 Hle E1. eapply st_le_trans; [|apply Heq]. eapply IHe; [exact E1|reflexivity| |exact Hb].
      apply above_push; [exact HA|exact Hle]. }
    revert Ef. generalize (st_of_default_le sx). generalize ty_default. generalize fuel at 2.
    intros n. induction n as [|n IHn]; intros t Hle; cbn; [discriminate|].
    destruct (infer _ _ (push_var t c) e) as [r1| | |] eqn:E1; try discriminate. specialize (Hstep t r1 Hle E1).
    destruct (ty_eqb _ _); [intros E; injection E as <-; exact Hstep|]. apply IHn. exact Hstep.
  - cbn in Hg. destruct e; try discriminate. exfalso. eapply H; reflexivity.
  - cbn in E, Hg. injection Hg as <-. rewrite get_variable_type_spec in E.
    destruct (nth_error (env_of c) i) as [[[] ?]|]; try discriminate.
    destruct (nth_error (vars c) i) as [t'|] eqn:Ei; [|discriminate]. injection E as <-. cbn [get_type].
    destruct HA as (H1 & H2 & H3). cbn [gsub] in Ht. destruct (Nat.compare_spec i k) as [->|Hi|Hi].
    + rewrite H1 in Ei. injection Ei as <-. eapply Hh; exact Ht.
    + inversion Ht; subst. eapply H2; eauto.
    + inversion Ht; subst. eapply H3; eauto.
Qed.

Lemma typed_unsubst h : closed_below 0 h -> forall g G1 G2 s, typed (G1 ++ G2) (gsub (length G1) h g) s ->
  (exists t, typed [] h t) \/ (forall x, typed (G1 ++ x :: G2) g s).
Proof.
  intros Hc. induction g using gram_ind'; intros G1 G2 s' Ht.
  - right. intros x. inversion Ht; subst. constructor.
  - right. intros x. inversion Ht; subst. constructor.
  - cbn [gsub] in Ht. destruct l as [|g l]; [inversion Ht|]. cbn [map] in Ht.
    inversion Ht as [| | |? ? ? t1 ? Hf Hnull Hrest| |]; subst. apply Forall_cons_iff in H as [Hg Hl].
    destruct (Hg _ _ _ Hf) as [D|D1]; [left; exact D|].
    assert (D2 : (exists t, typed [] h t) \/ forall x, typed_seq (unguard (G1 ++ x :: G2)) t1 l s').
    { clear - Hl Hrest. unfold unguard in Hrest. rewrite map_app in Hrest. revert t1 Hrest.
      induction Hl as [|g l Hg Hl IH]; intros t1 Hrest; cbn [map] in Hrest.
      - right. intros x. inversion Hrest; subst. constructor.
      - inversion Hrest as [|? ? ? ? s1 ? Hg1 Hsep Hrest']; subst.
        rewrite <- (map_length (fun x : bool * stype => (true, snd x)) G1) in Hg1.
        destruct (Hg _ _ _ Hg1) as [D|D1]; [left; exact D|]. destruct (IH _ Hrest') as [D|D2]; [left; exact D|].
        right. intros x. econstructor; [|exact Hsep|apply D2]. specialize (D1 (true, snd x)).
        unfold unguard. rewrite map_app. exact D1. }
    destruct D2 as [D|D2]; [left; exact D|]. right. intros x. econstructor; eauto.
  - cbn [gsub] in Ht. destruct l as [|g l]; [inversion Ht|]. cbn [map] in Ht.
    inversion Ht as [| | | |? ? ? t1 ? Hf Hrest|]; subst. apply Forall_cons_iff in H as [Hg Hl].
    destruct (Hg _ _ _ Hf) as [D|D1]; [left; exact D|].
    assert (D2 : (exists t, typed [] h t) \/ forall x, typed_branches (G1 ++ x :: G2) t1 l s').
    { clear - Hl Hrest. revert t1 Hrest.
      induction Hl as [|g l Hg Hl IH]; intros t1 Hrest; cbn [map] in Hrest.
      - right. intros x. inversion Hrest; subst. constructor.
      - inversion Hrest as [|? ? ? ? s1 ? Hg1 Hsep Hrest']; subst.
        destruct (Hg _ _ _ Hg1) as [D|D1]; [left; exact D|]. destruct (IH _ Hrest') as [D|D2]; [left; exact D|].
        right. intros x. econstructor; [apply D1|exact Hsep|apply D2]. }
    destruct D2 as [D|D2]; [left; exact D|]. right. intros x. econstructor; eauto.
  - cbn [gsub] in Ht. inversion Ht as [| | | | |? ? ? s1 Hb Heq]; subst.
    destruct (IHg ((false, s') :: G1) G2 s1 Hb) as [D|D]; [left; exact D|]. right. intros x.
    econstructor; [apply D|exact Heq].
  - cbn [gsub] in Ht. destruct (Nat.compare_spec i (length G1)) as [->|Hi|Hi].
    + left. exists s'. eapply typed_any_env; eauto.
    + right. intros x. inversion Ht as [| |? ? ? Hn| | |]; subst. constructor.
      rewrite nth_error_app1 in * by exact Hi. exact Hn.
    + right. intros x. inversion Ht as [| |? ? ? Hn| | |]; subst. constructor.
      rewrite nth_error_app2 in * by lia. replace (i - length G1) with (S (i - 1 - length G1)) by lia. exact Hn.
Qed.

(** The unrolled grammar, at the level of grammars. *)
Lemma unrolled_accepted gb : (exists s, typed [] (GFix gb) s) -> exists s, typed [] (gsub 0 (GFix gb) gb) s.
Proof.
  intros [s Ht]. pose proof (proj1 typed_closed _ _ _ Ht) as Hc.
  inversion Ht as [| | | | |? ? ? s1 Hb Heq]; subst. exists s1.
  exact (proj1 (typed_subst (GFix gb) s Hc Ht) _ _ _ Hb [] false [] eq_refl).
Qed.
Lemma rolled_accepted gb : closed_below 0 (GFix gb) -> (exists s, typed [] (gsub 0 (GFix gb) gb) s) -> exists s, typed [] (GFix gb) s.
Proof.
  intros Hc [s Ht]. destruct (typed_unsubst (GFix gb) Hc gb [] [] s Ht) as [D|D]; [exact D|].
  exists s. econstructor; [apply D|apply st_eq_refl].
Qed.

Theorem fix_unrolls f w gb : steps (LFix f) w -> lgram w = Some (GFix gb) -> single w -> closed_below 0 (GFix gb) ->
  exists w', steps (LCall f [LFix f]) w' /\ lgram w' = Some (gsub 0 (GFix gb) gb).
Proof.
  intros Hs Hg Hw Hc. apply (evals_grammar _ _ _ Hg) in Hs. inversion Hs as [| | | | | | e n b b' He Hb | e v He Hv | |]; subst; try discriminate Hg.
  2: { destruct v; try discriminate Hg. discriminate Hv. }
  pose proof Hw as Hw0. destruct Hw as [Hw ->]. pose proof Hg as HW. cbn [lgram] in Hg. destruct (lgram b') as [gb' |] eqn:Eb; [| discriminate Hg]. injection Hg as ->.
  set (W := LFix (LLam 1 b')) in *.
  exists (lsub (inst [W]) b'). split.
  - assert (H1 : steps f (LLam 1 b')).
    { eapply steps_trans; [apply (proj1 evals_steps); exact He |]. apply steps_lam. now apply (proj1 evals_steps). }
    eapply steps_trans; [apply steps_fun; exact H1 |]. eapply steps_trans.
    + assert (Ha : forall x y, steps x y -> steps (LCall (LLam 1 b') [x]) (LCall (LLam 1 b') [y])).
      { induction 1 as [x | x y z Hxy _ IH]; [constructor |]. eapply steps_step; [| exact IH]. exact (step_arg _ [] x y [] Hxy). }
      apply Ha, steps_fix, H1.
    + apply steps_one. now apply step_beta.
  - apply (lgram_lsub b' gb Eb Hw 0 (GFix gb) (inst [W]) Hc). split; [intros i Hi; lia|]. split.
    + split; [exact HW|exact Hw0].
    + intros [|i] Hi; [lia|]. unfold inst. cbn. destruct i; reflexivity.
Qed.

(** Types. *)
Lemma unrolled_type v v' gb r r' : typecheck v = Ok r -> gram_of v = Some (GFix gb) ->
  typecheck v' = Ok r' -> gram_of v' = Some (gsub 0 (GFix gb) gb) -> get_type r' = get_type r.
Proof.
  intros E Hg E' Hg'.
  destruct (infer_least v _ _ _ r reach_empty E) as (g1 & s & Hg1 & Ht & Hs & Hleast).
  rewrite Hg in Hg1. injection Hg1 as <-. pose proof (proj1 typed_closed _ _ _ Ht) as Hc.
  destruct (infer_least v' _ _ _ r' reach_empty E') as (g2 & s' & Hg2 & Ht' & Hs' & Hleast').
  rewrite Hg' in Hg2. injection Hg2 as <-.
  apply ty_antisym; eauto using typecheck_ok_type.
  - change (env_of tctx_default) with (@nil (bool * stype)) in *.
    inversion Ht as [| | | | |? ? ? s1 Hb Heq]; subst.
    eapply st_le_trans; [apply Hleast'|].
    + exact (proj1 (typed_subst (GFix gb) s Hc Ht) _ _ _ Hb [] false [] eq_refl).
    + eapply st_le_trans; [apply Heq|apply Hs].
  - eapply st_le_trans; [|apply Hs'].
    destruct v as [| | | |a i| | | |]; try discriminate Hg; try (cbn in Hg; repeat destruct (gram_of _); try discriminate Hg; destruct (all_some _); discriminate Hg).
    destruct i as [| | | | | | |ai ns b|]; try discriminate Hg. cbn in Hg. destruct (gram_of b) as [gb'|] eqn:Egb; [|discriminate Hg]. injection Hg as ->.
    unfold typecheck in E. rewrite infer_fix in E. destruct (fix_loop _ _ _) as [r0| | |] eqn:Ef; try discriminate. injection E as <-. cbn [get_type] in *.
    apply fix_loop_ok in Ef.
    eapply (infer_least_subst (GFix gb) (get_type r0)) with (k := 0) (G := []); [|exact Ef|exact Egb| |exact Ht'].
    + intros G sG HG. apply Hleast. eapply typed_any_env; eauto.
    + split; [reflexivity|]. split; [intros i t Hi; lia|]. intros i t Hi _ b0 s0 Hn. destruct (i - 1); discriminate Hn.
Qed.
