(** * DefectFacts: type errors are true, and defects are errors. *)
From Verif Require Export SpecDefect ExactFacts InferMore WtFacts.
From Coq Require Import List Lia.

(** ** Types of unfinished rounds do not say too much *)
Definition under (t : ty) (L : lang) : Prop :=
  (nullable t = true -> L [])
  /\ (forall c, In c (first_set t) -> exists w, L (c :: w))
  /\ (forall c, In c (flast_set t) -> exists u v, L u /\ L (u ++ c :: v)).
Lemma under_ext t L M : (forall w, L w <-> M w) -> under t L -> under t M.
Proof.
  intros H (R1 & R2 & R3). split; [|split].
  - intros Hn. apply H; auto.
  - intros c Hc. destruct (R2 c Hc) as [w Hw]. exists w. apply H; auto.
  - intros c Hc. destruct (R3 c Hc) as (u & v & H1 & H2). exists u, v. rewrite <- !H. auto.
Qed.
Lemma under_cat s t L M : under s L -> under t M -> (exists w, L w) -> (exists w, M w) -> under (ty_cat s t) (lang_cat L M).
Proof.
  intros (A1 & A2 & A3) (B1 & B2 & B3) (wl & Hl) (wm & Hm). split; [|split]; cbn.
  - intros H. apply andb_true_iff in H as [H1 H2]. exists [], []. auto.
  - intros c Hc. assert (K : In c (first_set s) \/ nullable s = true /\ In c (first_set t)).
    { destruct (nullable s); [|auto]. rewrite cset_union_In in Hc. tauto. }
    destruct K as [K | [Hn K]].
    + destruct (A2 c K) as [w Hw]. exists (w ++ wm), (c :: w), wm. auto.
    + destruct (B2 c K) as [w Hw]. exists w, [], (c :: w). auto.
  - intros c Hc.
    assert (K : In c (flast_set t) \/ nullable t = true /\ (In c (first_set t) \/ In c (flast_set s))).
    { destruct (nullable t); [|auto]. rewrite !cset_union_In in Hc. tauto. }
    destruct K as [K|[Hn [K|K]]].
    + destruct (B3 c K) as (u & v & H1 & H2). exists (wl ++ u), v. split; [exists wl, u; auto |]. exists wl, (u ++ c :: v). rewrite <- app_assoc. auto.
    + destruct (B2 c K) as [w Hw]. exists wl, w. split; [exists wl, []; rewrite app_nil_r; auto |]. exists wl, (c :: w). auto.
    + destruct (A3 c K) as (u & v & H1 & H2). exists u, v. split; [exists u, []; rewrite app_nil_r; auto |]. exists (u ++ c :: v), []. rewrite app_nil_r. auto.
Qed.
Lemma under_alt s t L M : under s L -> under t M -> under (ty_alt s t) (fun w => L w \/ M w).
Proof.
  intros (A1 & A2 & A3) (B1 & B2 & B3). split; [|split]; cbn.
  - intros Hn. apply orb_true_iff in Hn as [Hn|Hn]; auto.
  - intros c Hc. apply cset_union_In in Hc as [Hc|Hc]; [destruct (A2 c Hc)|destruct (B2 c Hc)]; eauto.
  - intros c Hc. apply cset_union_In in Hc as [Hc|Hc]; [destruct (A3 c Hc) as (u & v & ? & ?)|destruct (B3 c Hc) as (u & v & ? & ?)]; exists u, v; auto.
Qed.
Lemma under_default L : under ty_default L.
Proof. split; [| split]; cbn; try tauto. discriminate. Qed.
Lemma seq_go_under inf env l : Forall (fun x => forall r g, inf (snd x) = Ok r -> gram_of (snd x) = Some g -> productive env g -> under (get_type r) (lang_of env g)) l ->
  forall gs t ts t' L, all_some (map (fun x => gram_of (snd x)) l) = Some gs -> productives env gs -> under t L -> (exists w, L w) ->
  seq_go inf t l = Ok (ts, t') -> under t' (lang_cat L (lang_cats env gs)).
Proof.
  induction 1 as [|[p e] l He Hl IH]; intros gs t ts t' L Hgs Hp HL Hw E; cbn [map all_some seq_go] in *.
  - injection Hgs as <-. injection E as _ <-. cbn. eapply under_ext; [|exact HL]. intros w. symmetry. apply lang_cat_eps_r.
  - cbn [snd] in *. destruct (gram_of e) as [g|]; [|discriminate]. destruct (all_some _) as [gs'|]; [|discriminate]. injection Hgs as <-. cbn in Hp. destruct Hp as [Hp1 Hp2].
    destruct (inf e) as [r| | |]; try discriminate. destruct (cset_disjoint _ _); [|discriminate].
    destruct (seq_go inf _ l) as [[ts1 t1]| | |] eqn:E1; try discriminate. injection E as _ <-. cbn [lang_cats]. eapply under_ext; [intros w; apply lang_cat_assoc|].
    destruct (productive_word _ _ Hp1) as [wg Hg]. eapply (IH gs' (ty_cat t (get_type r))); eauto.
    + apply under_cat; eauto.
    + destruct Hw as [w Hw]. exists (w ++ wg), w, wg. auto.
Qed.
Lemma alt_go_under inf env l : Forall (fun x => forall r g, inf (snd x) = Ok r -> gram_of (snd x) = Some g -> productive env g -> under (get_type r) (lang_of env g)) l ->
  forall gs t ts t' L, all_some (map (fun x => gram_of (snd x)) l) = Some gs -> productives env gs -> under t L ->
  alt_go inf t l = Ok (ts, t') -> under t' (fun w => L w \/ lang_alts env gs w).
Proof.
  induction 1 as [|[p e] l He Hl IH]; intros gs t ts t' L Hgs Hp HL E; cbn [map all_some alt_go] in *.
  - injection Hgs as <-. injection E as _ <-. cbn. eapply under_ext; [|exact HL]. intros w. unfold lang_empty. tauto.
  - cbn [snd] in *. destruct (gram_of e) as [g|]; [|discriminate]. destruct (all_some _) as [gs'|]; [|discriminate]. injection Hgs as <-. cbn in Hp. destruct Hp as [Hp1 Hp2].
    destruct (inf e) as [r| | |]; try discriminate. destruct (_ && _); [discriminate |]. destruct (cset_disjoint _ _); [|discriminate].
    destruct (alt_go inf _ l) as [[ts1 t1]| | |] eqn:E1; try discriminate. injection E as _ <-. cbn [lang_alts].
    apply (under_ext _ (fun w => (L w \/ lang_of env g w) \/ lang_alts env gs' w)); [intros w; tauto |].
    eapply (IH gs' (ty_alt t (get_type r))); eauto. apply under_alt; eauto.
Qed.
Theorem infer_under e : forall fuel nm c r g env, infer fuel nm c e = Ok r -> gram_of e = Some g -> productive env g ->
  ctx_real under c env -> under (get_type r) (lang_of env g).
Proof.
  induction e using nexpr_ind_fix; intros fuel nm c t g env E Hg Hp Hc; try discriminate.
  - injection Hg as <-. cbn in E. injection E as <-. split; [reflexivity | split; cbn; tauto].
  - cbn in E. injection Hg as <-. injection E as <-. split; [| split].
    + intros Hn. cbn in *. destruct s; [reflexivity|discriminate].
    + intros x Hx. cbn in *. destruct s as [| y s]; cbn in Hx; [tauto |]. destruct Hx as [-> | []]. now exists s.
    + cbn. tauto.
  - rewrite infer_cat in E. cbn in Hg. destruct (gram_of e) as [g1|] eqn:Eg; [|discriminate].
    destruct (all_some _) as [gs|] eqn:Egs; [|discriminate]. injection Hg as <-. apply productive_cat in Hp as [_ [Hp1 Hp2]].
    destruct (infer fuel (e_name e) c e) as [f'| | |] eqn:Ef; try discriminate. destruct (nullable (get_type f')) eqn:Hn; [discriminate|].
    destruct (seq_go _ _ _) as [[ts t']| | |] eqn:Es; try discriminate. injection E as <-. cbn [get_type]. rewrite lang_of_cat. cbn [lang_cats].
    eapply seq_go_under in Es; [exact Es | | exact Egs | exact Hp2 | eapply IHe; eauto | now apply productive_word].
    eapply Forall_impl; [|eassumption]. cbn. intros x Hx r' g' Hr' Hg' Hpg. eapply Hx; eauto.
  - rewrite infer_alt in E. cbn in Hg. destruct (gram_of e) as [g1|] eqn:Eg; [|discriminate].
    destruct (all_some _) as [gs|] eqn:Egs; [|discriminate]. injection Hg as <-. apply productive_alt in Hp as [_ [Hp1 Hp2]].
    destruct (infer fuel (e_name e) c e) as [f'| | |] eqn:Ef; try discriminate.
    destruct (alt_go _ _ _) as [[ts t']| | |] eqn:Es; try discriminate. injection E as <-. cbn [get_type]. rewrite lang_of_alt. cbn [lang_alts].
    eapply alt_go_under in Es; [exact Es | | exact Egs | exact Hp2 | eapply IHe; eauto].
    eapply Forall_impl; [|eassumption]. cbn. intros x Hx r' g' Hr' Hg' Hpg. eapply Hx; eauto.
  - rewrite infer_fix in E. cbn in Hg. destruct (gram_of e) as [g1|] eqn:Eg; [|discriminate]. cbn in Hg. injection Hg as <-.
    destruct (fix_loop _ _ _) as [r| | |] eqn:Ef; try discriminate. injection E as <-. cbn [get_type]. cbn in Hp. destruct Hp as [_ Hp].
    revert Ef. apply (fix_loop_inv (fun t => under t (lang_of env (GFix g1)))); [| apply under_default].
    intros t r' Ht Hr'. eapply under_ext; [intros w; symmetry; apply lang_fix_unfold|]. eapply IHe; eauto. apply ctx_real_push; auto.
  - rewrite infer_fix in E. destruct e; try discriminate. exfalso. eapply H; reflexivity.
  - cbn in E. unfold get_variable_type in E. destruct (nth_error (vars c) i) as [t'|] eqn:Ei; [|discriminate].
    destruct (Nat.leb _ _); [|discriminate]. injection E as <-. injection Hg as <-. cbn [get_type lang_of]. apply Hc. exact Ei.
Qed.

(** ** Where a loop fails *)
Lemma seq_go_err inf l : forall t x, seq_go inf t l = Err x -> exists l1 p e l2, l = l1 ++ (p, e) :: l2 /\ exists ts t1, seq_go inf t l1 = Ok (ts, t1) /\
  (inf e = Err x \/ exists r, inf e = Ok r /\ cset_disjoint (flast_set t1) (first_set (get_type r)) = false /\ x = FirstFlastOverlap t1 p r).
Proof.
  induction l as [| [p e] l IH]; intros t x; cbn; [discriminate |]. destruct (inf e) as [r | y | |] eqn:Ee; try discriminate.
  - destruct (cset_disjoint _ _) eqn:Ed.
    + destruct (seq_go inf _ l) as [[ts t1] | y | |] eqn:Es; try discriminate. intros [= ->]. destruct (IH _ _ Es) as (l1 & p1 & e1 & l2 & -> & ts & t1 & H1 & H2). exists ((p, e) :: l1), p1, e1, l2. split; [reflexivity |].
      exists (r :: ts), t1. cbn. rewrite Ee, Ed, H1. auto.
    + intros [= <-]. exists [], p, e, l. split; [reflexivity |]. exists [], t. split; [reflexivity |]. right. eauto.
  - intros [= ->]. exists [], p, e, l. split; [reflexivity |]. exists [], t. auto.
Qed.
Lemma alt_go_err inf l : forall t x, alt_go inf t l = Err x -> exists l1 p e l2, l = l1 ++ (p, e) :: l2 /\ exists ts t1, alt_go inf t l1 = Ok (ts, t1) /\
  (inf e = Err x \/ exists r, inf e = Ok r /\ (nullable t1 && nullable (get_type r) = true /\ x = BothNullable t1 p r \/ cset_disjoint (first_set t1) (first_set (get_type r)) = false /\ x = FirstOverlap t1 p r)).
Proof.
  induction l as [| [p e] l IH]; intros t x; cbn; [discriminate |]. destruct (inf e) as [r | y | |] eqn:Ee; try discriminate.
  - destruct (_ && _) eqn:En; [intros [= <-]; exists [], p, e, l; split; [reflexivity |]; exists [], t; split; [reflexivity |]; right; eauto |]. destruct (cset_disjoint _ _) eqn:Ed.
    + destruct (alt_go inf _ l) as [[ts t1] | y | |] eqn:Es; try discriminate. intros [= ->]. destruct (IH _ _ Es) as (l1 & p1 & e1 & l2 & -> & ts & t1 & H1 & H2). exists ((p, e) :: l1), p1, e1, l2. split; [reflexivity |].
      exists (r :: ts), t1. cbn. rewrite Ee, En, Ed, H1. auto.
    + intros [= <-]. exists [], p, e, l. split; [reflexivity |]. exists [], t. split; [reflexivity |]. right. eauto.
  - intros [= ->]. exists [], p, e, l. split; [reflexivity |]. exists [], t. auto.
Qed.
Lemma fix_loop_err (P : ty -> Prop) step x n : (forall t r, P t -> step t = Ok r -> P (get_type r)) -> forall t, P t -> fix_loop step n t = Err x -> exists t', P t' /\ step t' = Err x.
Proof.
  intros H. induction n as [|n IH]; intros t Ht; cbn; [discriminate|]. destruct (step t) as [r'| | |] eqn:E; try discriminate.
  - destruct (ty_eqb _ _); [discriminate |]. eauto.
  - intros [= ->]. eauto.
Qed.
Lemma all_some_mid {A B} (f : A -> option B) l1 x l2 gs : all_some (map f (l1 ++ x :: l2)) = Some gs -> exists g1 g g2, gs = g1 ++ g :: g2 /\ all_some (map f l1) = Some g1 /\ f x = Some g /\ all_some (map f l2) = Some g2.
Proof.
  revert gs. induction l1 as [| y l1 IH]; intros gs; cbn.
  - destruct (f x) as [g |]; [| discriminate]. destruct (all_some _) as [g2 |]; [| discriminate]. intros [= <-]. exists [], g, g2. auto.
  - destruct (f y) as [h |]; [| discriminate]. destruct (all_some (map f (l1 ++ x :: l2))) as [gs' |]; [| discriminate]. intros [= <-]. destruct (IH gs' eq_refl) as (g1 & g & g2 & -> & -> & -> & ->). exists (h :: g1), g, g2. auto.
Qed.
Lemma productives_app env l m : productives env (l ++ m) <-> productives env l /\ productives env m.
Proof. induction l as [| g l IH]; cbn; [tauto |]. rewrite IH. tauto. Qed.

(** ** Errors are true *)
Definition flags (r : scope) (c : tctx) : Prop := map fst r = map fst (env_of c).
Lemma langs_behind r : langs (behind r) = langs r.
Proof. unfold langs, behind. rewrite map_map. reflexivity. Qed.
Lemma flags_behind r c : flags r c -> flags (behind r) (push_unguard c).
Proof. unfold flags, behind. rewrite env_of_unguard. unfold unguard. rewrite !map_map. cbn. intros H. apply (f_equal (map (fun _ => true))) in H. now rewrite !map_map in H. Qed.
Lemma flags_enter r c g t : ctx_wf c -> flags r c -> flags (enter g r) (push_var t c).
Proof. unfold flags, enter. intros W H. rewrite env_of_var by exact W. cbn. now rewrite H. Qed.
Lemma flags_nth r c i : flags r c -> option_map fst (nth_error r i) = option_map fst (nth_error (env_of c) i).
Proof. unfold flags. intros H. rewrite <- !nth_error_map. now rewrite H. Qed.
Lemma not_disjoint s t : cset_disjoint s t = false -> exists c, In c s /\ In c t.
Proof. unfold cset_disjoint. destruct (cset_inter s t) as [| c l] eqn:E; [discriminate |]. intros _. exists c. apply cset_inter_In. rewrite E. now left. Qed.
Theorem infer_explains e : forall fuel nm c x g r, infer fuel nm c e = Err x -> gram_of e = Some g -> ctx_wf c -> flags r c -> ctx_real null_real c (langs r) ->
  (about_sets x -> productive (langs r) g /\ ctx_real under c (langs r)) -> explains nm r e x.
Proof.
  induction e using nexpr_ind_fix; intros fuel nm c y g sc E Hg W F N S; try discriminate.
  - rewrite infer_cat in E. cbn in Hg. destruct (gram_of e) as [g1|] eqn:Eg; [|discriminate]. destruct (all_some _) as [gs|] eqn:Egs; [|discriminate]. injection Hg as <-.
    assert (S' : about_sets y -> productive (langs sc) g1 /\ productives (langs sc) gs /\ ctx_real under c (langs sc)) by (intros A; destruct (S A) as [Hp U]; apply productive_cat in Hp as [_ [Hp1 Hp2]]; auto).
    destruct (infer fuel (e_name e) c e) as [f'| z | |] eqn:Ef; try discriminate.
    2: { injection E as ->. apply explains_in_first. eapply IHe; eauto. intros A. destruct (S' A) as (? & _ & ?). auto. }
    destruct (nullable (get_type f')) eqn:Hn.
    { injection E as <-. apply (explains_nullable _ _ _ _ _ g1); [exact Eg | | now apply infer_keeps in Ef | exact Hn]. revert Hn; eapply infer_null_real; [exact Ef | exact Eg | exact N]. }
    destruct (seq_go _ _ _) as [[ts t']| z | |] eqn:Es; try discriminate. injection E as ->. apply seq_go_err in Es as (l1 & p & e1 & l2 & -> & ts & t1 & Hok & Herr).
    apply all_some_mid in Egs as (gs1 & h & gs2 & -> & H1 & H2 & H3). cbn [snd] in H2.
    assert (Hin : In (p, e1) (l1 ++ (p, e1) :: l2)) by (apply in_or_app; right; now left). rewrite Forall_forall in H. pose proof (H _ Hin) as IH1. cbn [snd] in IH1.
    destruct Herr as [Herr | (q & Hq & Hd & ->)].
    + eapply explains_in_rest; [exact Hin |]. eapply IH1; [exact Herr | exact H2 | apply ctx_wf_unguard | now apply flags_behind | rewrite langs_behind; exact N |]. intros A. rewrite langs_behind. destruct (S' A) as (_ & Hp & U). split; [| exact U]. apply productives_app in Hp as [_ [Hp _]]. exact Hp.
    + destruct (S' Logic.I) as (P1 & P2 & U). apply productives_app in P2 as [P2 [P3 _]]. destruct (not_disjoint _ _ Hd) as (ch & C1 & C2).
      assert (U1 : under t1 (lang_cat (lang_of (langs sc) g1) (lang_cats (langs sc) gs1))).
      { eapply seq_go_under; [| exact H1 | exact P2 | eapply infer_under; [exact Ef | exact Eg | exact P1 | exact U] | now apply productive_word | exact Hok]. apply Forall_forall. intros [p0 e0] Hin0 r0 g0 Hr0 Hg0 Hp0. eapply infer_under; [exact Hr0 | exact Hg0 | exact Hp0 | exact U]. }
      assert (U2 : under (get_type q) (lang_of (langs sc) h)) by (eapply infer_under; [exact Hq | exact H2 | exact P3 | exact U]).
      destruct (proj2 (proj2 U1) _ C1) as (u & v & Hu & Hv). destruct (proj1 (proj2 U2) _ C2) as (w & Hw).
      eapply (explains_end _ _ _ _ _ _ _ _ (g1 :: gs1) h _ _ u ch v w); eauto.
      * unfold grams. cbn [map all_some]. rewrite Eg, map_map, H1. reflexivity.
      * apply infer_keeps in Hq. exact Hq.
      * rewrite lang_of_cat. exact Hu.
      * rewrite lang_of_cat. exact Hv.
  - rewrite infer_alt in E. cbn in Hg. destruct (gram_of e) as [g1|] eqn:Eg; [|discriminate]. destruct (all_some _) as [gs|] eqn:Egs; [|discriminate]. injection Hg as <-.
    assert (S' : about_sets y -> productive (langs sc) g1 /\ productives (langs sc) gs /\ ctx_real under c (langs sc)) by (intros A; destruct (S A) as [Hp U]; apply productive_alt in Hp as [_ [Hp1 Hp2]]; auto).
    destruct (infer fuel (e_name e) c e) as [f'| z | |] eqn:Ef; try discriminate.
    2: { injection E as ->. apply explains_in_alt_first. eapply IHe; eauto. intros A. destruct (S' A) as (? & _ & ?). auto. }
    destruct (alt_go _ _ _) as [[ts t']| z | |] eqn:Es; try discriminate. injection E as ->. apply alt_go_err in Es as (l1 & p & e1 & l2 & -> & ts & t1 & Hok & Herr).
    apply all_some_mid in Egs as (gs1 & h & gs2 & -> & H1 & H2 & H3). cbn [snd] in H2.
    assert (Hin : In (p, e1) (l1 ++ (p, e1) :: l2)) by (apply in_or_app; right; now left). rewrite Forall_forall in H. pose proof (H _ Hin) as IH1. cbn [snd] in IH1.
    assert (K : grams (e :: map snd l1) = Some (g1 :: gs1)) by (unfold grams; cbn [map all_some]; rewrite Eg, map_map, H1; reflexivity).
    destruct Herr as [Herr | (q & Hq & [[Hnn ->] | [Hd ->]])].
    + eapply explains_in_alt; [exact Hin |]. eapply IH1; [exact Herr | exact H2 | exact W | exact F | exact N |]. intros A. destruct (S' A) as (_ & Hp & U). split; [| exact U]. apply productives_app in Hp as [_ [Hp _]]. exact Hp.
    + apply andb_true_iff in Hnn as [N1 N2]. eapply (explains_both _ _ _ _ _ _ _ _ (g1 :: gs1) h); eauto.
      * apply infer_keeps in Hq. exact Hq.
      * rewrite lang_of_alt. cbn [lang_alts]. revert N1. eapply (alt_go_null _ (langs sc) l1 gs1); [| exact H1 | eapply infer_null_real; [exact Ef | exact Eg | exact N] | exact Hok]. apply Forall_forall. intros [p0 e0] Hin0 r0 g0 Hr0 Hg0. eapply infer_null_real; [exact Hr0 | exact Hg0 | exact N].
      * revert N2. eapply infer_null_real; [exact Hq | exact H2 | exact N].
    + destruct (S' Logic.I) as (P1 & P2 & U). apply productives_app in P2 as [P2 [P3 _]]. destruct (not_disjoint _ _ Hd) as (ch & C1 & C2).
      assert (U1 : under t1 (fun w => lang_of (langs sc) g1 w \/ lang_alts (langs sc) gs1 w)).
      { eapply alt_go_under; [| exact H1 | exact P2 | eapply infer_under; [exact Ef | exact Eg | exact P1 | exact U] | exact Hok]. apply Forall_forall. intros [p0 e0] Hin0 r0 g0 Hr0 Hg0 Hp0. eapply infer_under; [exact Hr0 | exact Hg0 | exact Hp0 | exact U]. }
      assert (U2 : under (get_type q) (lang_of (langs sc) h)) by (eapply infer_under; [exact Hq | exact H2 | exact P3 | exact U]).
      destruct (proj1 (proj2 U1) _ C1) as (v & Hv). destruct (proj1 (proj2 U2) _ C2) as (w & Hw).
      eapply (explains_start _ _ _ _ _ _ _ _ (g1 :: gs1) h _ _ ch v w); eauto.
      * apply infer_keeps in Hq. exact Hq.
      * rewrite lang_of_alt. exact Hv.
  - rewrite infer_fix in E. cbn in Hg. destruct (gram_of e) as [g1|] eqn:Eg; [|discriminate]. cbn in Hg. injection Hg as <-.
    destruct (fix_loop _ _ _) as [r| z | |] eqn:Ef; try discriminate. injection E as ->.
    apply (fix_loop_err (fun t => null_real t (lang_of (langs sc) (GFix g1)) /\ (about_sets y -> under t (lang_of (langs sc) (GFix g1))))) in Ef.
    + destruct Ef as (t & [T1 T2] & Ef). apply (explains_in_fix _ _ _ _ _ _ g1); [exact Eg |]. eapply IHe; [exact Ef | reflexivity | now apply ctx_wf_var | now apply flags_enter | now apply ctx_real_push |].
      intros A. destruct (S A) as [Hp U]. cbn in Hp. destruct Hp as [_ Hp]. split; [exact Hp |]. apply ctx_real_push; auto.
    + intros t r [T1 T2] Hr. split.
      * intros Hn. apply lang_fix_unfold. revert Hn. eapply infer_null_real; [exact Hr | exact Eg |]. now apply ctx_real_push.
      * intros A. eapply under_ext; [intros w; symmetry; apply lang_fix_unfold |]. destruct (S A) as [Hp U]. cbn in Hp. destruct Hp as [_ Hp]. eapply infer_under; [exact Hr | exact Eg | exact Hp |]. apply ctx_real_push; auto.
    + split; [discriminate | intros _; apply under_default].
  - rewrite infer_fix in E. destruct e; try discriminate. exfalso. eapply H; reflexivity.
  - cbn in E. rewrite get_variable_type_spec in E. pose proof (flags_nth sc c i F) as Fi. destruct (nth_error (env_of c) i) as [[[] s] |] eqn:Ei; cbn in Fi.
    + destruct (nth_error (vars c) i) eqn:Ev; [discriminate |]. exfalso. rewrite env_of_nth, Ev in Ei. discriminate.
    + injection E as <-. destruct (nth_error sc i) as [[b L] |] eqn:En; [| discriminate]. cbn in Fi. injection Fi as ->. eapply explains_exposed. exact En.
    + injection E as <-. apply explains_free. apply nth_error_None. destruct (nth_error sc i); [discriminate | reflexivity].
Qed.

(** ** Errors name parts *)
Lemma located_part d e x : part d e -> located d x -> located e x.
Proof.
  intros H. assert (T : forall c, part c d -> part c e).
  { intros c Hc. induction H; [exact Hc | eauto using part_cat_first, part_cat_rest, part_alt_first, part_alt_rest, part_fix, part_lam, part_call_on, part_call_arg, part_let_bound, part_let_body ..]. }
  destruct x; cbn; intros; repeat match goal with E : exists _, _ |- _ => destruct E | E : _ /\ _ |- _ => destruct E end; subst; repeat eexists; eauto.
Qed.
Theorem infer_located e : forall fuel nm c x, infer fuel nm c e = Err x -> located e x.
Proof.
  induction e using nexpr_ind_fix; intros fuel nm c y E; try discriminate.
  - rewrite infer_cat in E. destruct (infer fuel (e_name e) c e) as [f'| z | |] eqn:Ef; try discriminate.
    2: { injection E as ->. apply (located_part e); [apply part_cat_first, part_self | eauto]. }
    destruct (nullable _) eqn:Hn.
    { injection E as <-. exists a, e, r. split; [apply part_self | split; [now apply infer_keeps in Ef | reflexivity]]. }
    destruct (seq_go _ _ _) as [[ts t']| z | |] eqn:Es; try discriminate. injection E as ->. apply seq_go_err in Es as (l1 & p & e1 & l2 & -> & ts & t1 & Hok & Herr).
    assert (Hin : In (p, e1) (l1 ++ (p, e1) :: l2)) by (apply in_or_app; right; now left). rewrite Forall_forall in H. pose proof (H _ Hin) as IH1. cbn [snd] in IH1.
    destruct Herr as [Herr | (q & Hq & Hd & ->)].
    + apply (located_part e1); [eapply part_cat_rest; [exact Hin | apply part_self] | eauto].
    + eexists _, _, _, e1. split; [apply part_self | split; [exact Hin | now apply infer_keeps in Hq]].
  - rewrite infer_alt in E. destruct (infer fuel (e_name e) c e) as [f'| z | |] eqn:Ef; try discriminate.
    2: { injection E as ->. apply (located_part e); [apply part_alt_first, part_self | eauto]. }
    destruct (alt_go _ _ _) as [[ts t']| z | |] eqn:Es; try discriminate. injection E as ->. apply alt_go_err in Es as (l1 & p & e1 & l2 & -> & ts & t1 & Hok & Herr).
    assert (Hin : In (p, e1) (l1 ++ (p, e1) :: l2)) by (apply in_or_app; right; now left). rewrite Forall_forall in H. pose proof (H _ Hin) as IH1. cbn [snd] in IH1.
    destruct Herr as [Herr | (q & Hq & [[Hnn ->] | [Hd ->]])].
    + apply (located_part e1); [eapply part_alt_rest; [exact Hin | apply part_self] | eauto].
    + eexists _, _, _, e1. split; [apply part_self | split; [exact Hin | now apply infer_keeps in Hq]].
    + eexists _, _, _, e1. split; [apply part_self | split; [exact Hin | now apply infer_keeps in Hq]].
  - rewrite infer_fix in E. destruct (fix_loop _ _ _) as [r| z | |] eqn:Ef; try discriminate. injection E as ->.
    apply (fix_loop_err (fun _ => True)) in Ef; auto. destruct Ef as (t & _ & Ef). apply (located_part e); [apply part_fix, part_lam, part_self | eauto].
  - rewrite infer_fix in E. destruct e; try (injection E as <-; eexists; split; [apply part_self | split; [reflexivity | intros; discriminate]]). exfalso. eapply H; reflexivity.
  - cbn in E. destruct (get_variable_type c i); try discriminate. injection E as <-. exists a. split; [apply part_self | reflexivity].
  - injection E as <-. repeat eexists. apply part_self.
  - injection E as <-. repeat eexists. apply part_self.
  - injection E as <-. repeat eexists. apply part_self.
Qed.

(** ** Errors are defects *)
Lemma lang_alts_in env gs w : lang_alts env gs w -> exists l g m, gs = l ++ g :: m /\ lang_of env g w.
Proof.
  induction gs as [| g gs IH]; cbn; [unfold lang_empty; tauto |]. intros [H | H]; [exists [], g, gs; auto |]. destruct (IH H) as (l & h & m & -> & Hh). exists (g :: l), h, m. auto.
Qed.
Lemma all_some_in {A B} (f : A -> option B) l gs x : all_some (map f l) = Some gs -> In x l -> exists g, f x = Some g /\ In g gs.
Proof. intros H Hin. apply in_split in Hin as (l1 & l2 & ->). apply all_some_mid in H as (g1 & g & g2 & -> & _ & H & _). exists g. split; [exact H |]. apply in_or_app. right. now left. Qed.
Lemma explains_defect nm r e x : explains nm r e x -> forall g, gram_of e = Some g -> defect r g.
Proof.
  induction 1; intros G HG; cbn [gram_of] in HG.
  - injection HG as <-. now apply defect_free.
  - injection HG as <-. eapply defect_exposed; eauto.
  - rewrite H in HG. destruct (all_some _) as [gs |]; [| discriminate]. injection HG as <-. now apply defect_nullable.
  - destruct (gram_of f) as [g1 |] eqn:Ef; [| discriminate]. destruct (all_some _) as [gs' |] eqn:Egs; [| discriminate]. injection HG as <-.
    apply all_some_mid in Egs as (gs1 & h' & gs2 & -> & H9 & H10 & H11). cbn [snd] in H10. rewrite H0 in H10. injection H10 as <-.
    unfold grams in H. cbn [map all_some] in H. rewrite Ef, map_map, H9 in H. injection H as <-. apply (defect_end r (g1 :: gs1) h gs2 u c v w); auto. discriminate.
  - destruct (gram_of f) as [g1 |] eqn:Ef; [| discriminate]. destruct (all_some _) as [gs' |] eqn:Egs; [| discriminate]. injection HG as <-.
    apply all_some_mid in Egs as (gs1 & h' & gs2 & -> & H9 & H10 & H11). cbn [snd] in H10. rewrite H0 in H10. injection H10 as <-.
    unfold grams in H. cbn [map all_some] in H. rewrite Ef, map_map, H9 in H. injection H as <-. rewrite lang_of_alt in H4. apply lang_alts_in in H4 as (l1 & g & m1 & E & Hg).
    change (g1 :: gs1 ++ h :: gs2) with ((g1 :: gs1) ++ h :: gs2). rewrite E, <- app_assoc. cbn. now apply defect_both.
  - destruct (gram_of f) as [g1 |] eqn:Ef; [| discriminate]. destruct (all_some _) as [gs' |] eqn:Egs; [| discriminate]. injection HG as <-.
    apply all_some_mid in Egs as (gs1 & h' & gs2 & -> & H9 & H10 & H11). cbn [snd] in H10. rewrite H0 in H10. injection H10 as <-.
    unfold grams in H. cbn [map all_some] in H. rewrite Ef, map_map, H9 in H. injection H as <-. rewrite lang_of_alt in H4. apply lang_alts_in in H4 as (l1 & g & m1 & E & Hg).
    change (g1 :: gs1 ++ h :: gs2) with ((g1 :: gs1) ++ h :: gs2). rewrite E, <- app_assoc. cbn. eapply defect_start; eauto.
  - destruct (gram_of f) as [g1 |] eqn:Ef; [| discriminate]. destruct (all_some _) as [gs' |] eqn:Egs; [| discriminate]. injection HG as <-. apply defect_in_first. auto.
  - destruct (gram_of f) as [g1 |] eqn:Ef; [| discriminate]. destruct (all_some _) as [gs' |] eqn:Egs; [| discriminate]. injection HG as <-.
    destruct (all_some_in _ _ _ _ Egs H) as (h & H1 & H2). eapply defect_in_rest; eauto.
  - destruct (gram_of f) as [g1 |] eqn:Ef; [| discriminate]. destruct (all_some _) as [gs' |] eqn:Egs; [| discriminate]. injection HG as <-. eapply defect_in_alt; [now left | auto].
  - destruct (gram_of f) as [g1 |] eqn:Ef; [| discriminate]. destruct (all_some _) as [gs' |] eqn:Egs; [| discriminate]. injection HG as <-.
    destruct (all_some_in _ _ _ _ Egs H) as (h & H1 & H2). eapply defect_in_alt; [right; eauto | eauto].
  - rewrite H in HG. injection HG as <-. apply defect_in_fix. auto.
Qed.

(** ** Defective grammars have no type *)
Lemma typed_seq_mid G t gs h rest t' : typed_seq G t (gs ++ h :: rest) t' -> exists t1 th, typed_seq G t gs t1 /\ typed G h th /\ separable t1 th.
Proof.
  revert t. induction gs as [| g gs IH]; intros t H; inversion H; subst.
  - exists t, t1. split; [constructor | auto].
  - destruct (IH _ H7) as (t2 & th & H8 & H9 & H10). exists t2, th. split; [econstructor; eauto | auto].
Qed.
Lemma typed_branches_mid G t gs h rest t' : typed_branches G t (gs ++ h :: rest) t' -> exists t1 th, typed_branches G t gs t1 /\ typed G h th /\ apart t1 th.
Proof.
  revert t. induction gs as [| g gs IH]; intros t H; inversion H; subst.
  - exists t, t1. split; [constructor | auto].
  - destruct (IH _ H7) as (t2 & th & H8 & H9 & H10). exists t2, th. split; [econstructor; eauto | auto].
Qed.
Lemma lang_alts_mid env l g m w : lang_of env g w -> lang_alts env (l ++ g :: m) w.
Proof. induction l as [| h l IH]; cbn; auto. Qed.
Lemma typed_alt_inv G gs s : typed G (GAlt gs) s -> exists g r t, gs = g :: r /\ typed G g t /\ typed_branches G t r s.
Proof. intros H. inversion H; subst. eauto 8. Qed.
Lemma typed_cat_inv G gs s : typed G (GCat gs) s -> exists g r t, gs = g :: r /\ typed G g t /\ ~ s_null t /\ typed_seq (unguard G) t r s.
Proof. intros H. inversion H; subst. eauto 9. Qed.
(** Two alternatives at different places are apart. *)
Lemma typed_alt_pair G l g m h n s : typed G (GAlt (l ++ g :: m ++ h :: n)) s -> forall env, describes_env G env ->
  exists th t1, typed G h th /\ apart t1 th /\ forall w, lang_of env g w -> (w = [] -> s_null t1) /\ (forall c v, w = c :: v -> s_first t1 c).
Proof.
  intros H env He. apply typed_alt_inv in H as (g0 & rest & t & E & T & B). destruct l as [| g1 l]; cbn in E; injection E as <- <-.
  - apply typed_branches_mid in B as (t2 & th & H5 & H6 & H7). exists th, t2. split; [exact H6 | split; [exact H7 |]].
    apply (proj2 (proj2 typed_describes)) with (env := env) (L := lang_of env g) in H5; [| exact He | now apply (proj1 typed_describes _ _ _ T)]. destruct H5 as (D1 & D2 & _).
    intros w Hw. split; [intros ->; apply D1; now left | intros c v ->; eapply D2; left; exact Hw].
  - change (l ++ g :: m ++ h :: n) with (l ++ (g :: m) ++ h :: n) in B. rewrite app_assoc in B.
    apply typed_branches_mid in B as (t2 & th & H5 & H6 & H7). exists th, t2. split; [exact H6 | split; [exact H7 |]].
    apply (proj2 (proj2 typed_describes)) with (env := env) (L := lang_of env g1) in H5; [| exact He | now apply (proj1 typed_describes _ _ _ T)]. destruct H5 as (D1 & D2 & _).
    intros w Hw. split; [intros -> | intros c v ->].
    + apply D1. right. now apply lang_alts_mid.
    + eapply D2. right. apply lang_alts_mid. exact Hw.
Qed.
Theorem typed_no_defect r g : defect r g -> forall G s, typed G g s -> map fst G = map fst r -> describes_env G (langs r) -> False.
Proof.
  induction 1 as [r i H | r i L H | r g gs H | r gs h rest u c v w Hne H1 H2 H3 | r l g m h n H1 H2 | r l g m h n c v w H1 H2 | r g gs H IH | r g gs h Hin H IH | r gs h Hin H IH | r g H IH]; intros G s T F D.
  - inversion T; subst. apply (f_equal (@length _)) in F. rewrite !map_length in F. assert (i < length G) by (apply nth_error_Some; congruence). lia.
  - inversion T; subst. apply (f_equal (fun l => nth_error l i)) in F. rewrite !nth_error_map, H in F.
    match goal with K : nth_error G i = _ |- _ => rewrite K in F end. discriminate.
  - apply typed_cat_inv in T as (g0 & r0 & t & [= <- <-] & T & N & _). apply N. now apply (proj1 typed_describes _ _ _ T _ D).
  - destruct gs as [| g gs]; [now elim Hne |]. apply typed_cat_inv in T as (g0 & r0 & t & [= <- <-] & T & N & S). apply typed_seq_mid in S as (t2 & th & K1 & K2 & K3).
    apply describes_env_unguard in D as D'. apply (proj1 (proj2 typed_describes)) with (env := langs r) (L := lang_of (langs r) g) in K1; [| exact D' | now apply (proj1 typed_describes _ _ _ T)].
    rewrite lang_of_cat in H1, H2. cbn [lang_cats] in H1, H2. destruct K1 as (D1 & _ & D3). destruct K3 as [K3 K4]. destruct u as [| x u]; [now apply K3, D1 |].
    apply (K4 c); [eapply (D3 (x :: u)); eauto; discriminate |]. apply (proj1 typed_describes _ _ _ K2 _ D' ) in H3. exact H3.
  - destruct (typed_alt_pair _ _ _ _ _ _ _ T _ D) as (th & t1 & K1 & [K2 _] & K3). apply K2. split; [now apply (K3 []) |]. now apply (proj1 typed_describes _ _ _ K1 _ D).
  - destruct (typed_alt_pair _ _ _ _ _ _ _ T _ D) as (th & t1 & K1 & [_ K2] & K3). apply (K2 c); [eapply (K3 (c :: v)); eauto |]. apply (proj1 typed_describes _ _ _ K1 _ D) in H2. exact H2.
  - apply typed_cat_inv in T as (g0 & r0 & t & [= <- <-] & T & _). eauto.
  - apply typed_cat_inv in T as (g0 & r0 & t & [= <- <-] & T & _ & S). apply in_split in Hin as (l1 & l2 & ->). apply typed_seq_mid in S as (t2 & th & K1 & K2 & K3). eapply IH; [exact K2 | |].
    + unfold unguard, behind. rewrite !map_map. cbn. apply (f_equal (map (fun _ => true))) in F. rewrite !map_map in F. exact F.
    + rewrite langs_behind. now apply describes_env_unguard.
  - apply typed_alt_inv in T as (g0 & r0 & t & -> & T & B). destruct Hin as [-> | Hin]; [eauto |]. apply in_split in Hin as (l1 & l2 & ->). apply typed_branches_mid in B as (t2 & th & K1 & K2 & K3). eauto.
  - pose proof (proj1 typed_describes _ _ _ T _ D) as DT. inversion T; subst.
    eapply IH; [eassumption | cbn; now rewrite F |]. constructor; [exact DT | exact D].
Qed.

(** ** Exposed variables are left recursion *)
Lemma left_recs_in env gs g : In g gs -> left_recursive env g -> left_recs env gs.
Proof. induction gs as [| h gs IH]; cbn; [tauto |]. intros [-> | H]; auto. Qed.
Lemma exposes_alts_in env gs g i : In g gs -> exposes env g i -> exposes_alts env gs i.
Proof. induction gs as [| h gs IH]; cbn; [tauto |]. intros [-> | H]; auto. Qed.
Lemma explains_left nm r e x : explains nm r e x -> forall i s n g, x = VariableError GuardedVariable i s n -> gram_of e = Some g ->
  left_recursive (langs r) g \/ exists j L, nth_error r j = Some (false, L) /\ exposes (langs r) g j.
Proof.
  induction 1 as [| | | | | | nm r a f rest x H IH | nm r a f rest p e x Hin H IH | nm r a f rest x H IH | nm r a f rest p e x Hin H IH | nm r a ai ns b gb x Hgb H IH]; intros i0 s0 n0 G Hx HG; try discriminate.
  - injection HG as <-. right. eexists _, _. split; [eassumption | reflexivity].
  - cbn [gram_of] in HG. destruct (gram_of f) as [g1 |] eqn:Ef; [| discriminate]. destruct (all_some _) as [gs' |] eqn:Egs; [| discriminate]. injection HG as <-.
    rewrite left_rec_cat. destruct (IH _ _ _ _ Hx eq_refl) as [K | (j & L & K1 & K2)]; [left; now left |]. right. exists j, L. rewrite exposes_cat. split; [exact K1 | now left].
  - cbn [gram_of] in HG. destruct (gram_of f) as [g1 |] eqn:Ef; [| discriminate]. destruct (all_some _) as [gs' |] eqn:Egs; [| discriminate]. injection HG as <-.
    destruct (all_some_in _ _ _ _ Egs Hin) as (h & H1 & H2). rewrite left_rec_cat. rewrite langs_behind in IH. destruct (IH _ _ _ _ Hx H1) as [K | (j & L & K1 & K2)].
    + left. right. eapply left_recs_in; eauto.
    + unfold behind in K1. rewrite nth_error_map in K1. destruct (nth_error r j); discriminate.
  - cbn [gram_of] in HG. destruct (gram_of f) as [g1 |] eqn:Ef; [| discriminate]. destruct (all_some _) as [gs' |] eqn:Egs; [| discriminate]. injection HG as <-.
    rewrite left_rec_alt. destruct (IH _ _ _ _ Hx eq_refl) as [K | (j & L & K1 & K2)]; [left; now left |]. right. exists j, L. rewrite exposes_alt. split; [exact K1 | now left].
  - cbn [gram_of] in HG. destruct (gram_of f) as [g1 |] eqn:Ef; [| discriminate]. destruct (all_some _) as [gs' |] eqn:Egs; [| discriminate]. injection HG as <-.
    destruct (all_some_in _ _ _ _ Egs Hin) as (h & H1 & H2). rewrite left_rec_alt. destruct (IH _ _ _ _ Hx H1) as [K | (j & L & K1 & K2)].
    + left. right. eapply left_recs_in; eauto.
    + right. exists j, L. rewrite exposes_alt. split; [exact K1 |]. right. eapply exposes_alts_in; eauto.
  - cbn [gram_of] in HG. rewrite Hgb in HG. injection HG as <-. cbn [left_recursive exposes]. destruct (IH _ _ _ _ Hx Hgb) as [K | ([| j] & L & K1 & K2)]; [left; now right | left; now left |]. right. exists j, L. auto.
Qed.
Lemma explains_free_open nm r e x : explains nm r e x -> forall i s n g, x = VariableError FreeVariable i s n -> gram_of e = Some g -> ~ closed_below (length r) g.
Proof.
  assert (A1 : forall n l h, In h l -> ~ closed_below n h -> ~ closed_below n (GCat l)).
  { intros n l h. induction l as [| g l IH]; cbn; [tauto |]. intros [-> | H] N [K1 K2]; [exact (N K1) |]. exact (IH H N K2). }
  assert (A : forall n l h, In h l -> ~ closed_below n h -> ~ closed_below n (GAlt l)) by exact A1.
  induction 1 as [| | | | | | nm r a f rest x H IH | nm r a f rest p e x Hin H IH | nm r a f rest x H IH | nm r a f rest p e x Hin H IH | nm r a ai ns b gb x Hgb H IH]; intros i0 s0 n0 G Hx HG; try discriminate.
  - injection HG as <-. cbn. lia.
  - cbn [gram_of] in HG. destruct (gram_of f) as [g1 |] eqn:Ef; [| discriminate]. destruct (all_some _) as [gs' |] eqn:Egs; [| discriminate]. injection HG as <-. apply (A1 _ _ g1); [now left | eauto].
  - cbn [gram_of] in HG. destruct (gram_of f) as [g1 |] eqn:Ef; [| discriminate]. destruct (all_some _) as [gs' |] eqn:Egs; [| discriminate]. injection HG as <-.
    destruct (all_some_in _ _ _ _ Egs Hin) as (h & H1 & H2). apply (A1 _ _ h); [now right |]. specialize (IH _ _ _ _ Hx H1). unfold behind in IH. now rewrite map_length in IH.
  - cbn [gram_of] in HG. destruct (gram_of f) as [g1 |] eqn:Ef; [| discriminate]. destruct (all_some _) as [gs' |] eqn:Egs; [| discriminate]. injection HG as <-. apply (A _ _ g1); [now left | eauto].
  - cbn [gram_of] in HG. destruct (gram_of f) as [g1 |] eqn:Ef; [| discriminate]. destruct (all_some _) as [gs' |] eqn:Egs; [| discriminate]. injection HG as <-.
    destruct (all_some_in _ _ _ _ Egs Hin) as (h & H1 & H2). apply (A _ _ h); [now right |]. eauto.
  - cbn [gram_of] in HG. rewrite Hgb in HG. injection HG as <-. cbn. specialize (IH _ _ _ _ Hx Hgb). exact IH.
Qed.
