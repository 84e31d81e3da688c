(** * ExactFacts: what else acceptance by type inference implies. *)
From Verif Require Export InferFacts TreeFacts SpecGuard.

(** ** Nullable is exact *)
Definition null_real (t : ty) (L : lang) : Prop := nullable t = true -> L [].

Lemma seq_go_keeps_nonnull inf l t ts t' : nullable t = false -> seq_go inf t l = Ok (ts, t') -> nullable t' = false.
Proof.
  revert t ts; induction l as [|[p e] l IH]; intros t ts Hn; cbn.
  - intros E. injection E as _ <-. exact Hn.
  - destruct (inf e) as [r| | |]; try discriminate. destruct (cset_disjoint _ _); [|discriminate].
    destruct (seq_go inf _ l) as [[ts1 t1]| | |] eqn:E1; try discriminate.
    intros E. injection E as _ <-. eapply IH; [|exact E1]. cbn. rewrite Hn. reflexivity.
Qed.

Lemma alt_go_null inf env l gs t ts t' L :
  Forall (fun x => forall r g, inf (snd x) = Ok r -> gram_of (snd x) = Some g -> null_real (get_type r) (lang_of env g)) l ->
  all_some (map (fun x => gram_of (snd x)) l) = Some gs ->
  null_real t L -> alt_go inf t l = Ok (ts, t') -> null_real t' (fun w => L w \/ lang_alts env gs w).
Proof.
  intros H. revert gs t ts L; induction H as [|[p e] l He Hl IH]; intros gs t ts L Hgs HL E; cbn [map all_some alt_go] in *.
  - injection Hgs as <-. injection E as _ <-. intros Hn. left. auto.
  - cbn [snd] in *. destruct (gram_of e) as [g|]; [|discriminate].
    destruct (all_some _) as [gs'|]; [|discriminate]. injection Hgs as <-.
    destruct (inf e) as [r| | |]; try discriminate. destruct (_ && _); [discriminate|].
    destruct (cset_disjoint _ _); [|discriminate].
    destruct (alt_go inf _ l) as [[ts1 t1]| | |] eqn:E1; try discriminate. injection E as _ <-.
    specialize (IH gs' (ty_alt t (get_type r)) ts1 (fun w => L w \/ lang_of env g w) eq_refl).
    intros Hn. cbn. enough ((L [] \/ lang_of env g []) \/ lang_alts env gs' []) by tauto.
    apply IH; auto. intros Hn'. cbn in Hn'. apply orb_true_iff in Hn' as [Hn'|Hn']; [left; auto|right].
    apply (He r g); auto.
Qed.

Lemma fix_loop_inv (P : ty -> Prop) step n t r :
  (forall t r, P t -> step t = Ok r -> P (get_type r)) -> P t -> fix_loop step n t = Ok r -> P (get_type r).
Proof.
  intros H. revert t; induction n as [|n IH]; intros t Ht; cbn; [discriminate|].
  destruct (step t) as [r'| | |] eqn:E; try discriminate.
  destruct (ty_eqb _ _); [intros E'; injection E' as <-; eauto|]. apply IH. eauto.
Qed.

Definition ctx_real (P : ty -> lang -> Prop) (c : tctx) (env : list lang) : Prop :=
  forall i t, nth_error (vars c) i = Some t -> P t (nth i env lang_empty).

Lemma ctx_real_push (P : ty -> lang -> Prop) t L c env : P t L -> ctx_real P c env -> ctx_real P (push_var t c) (L :: env).
Proof. intros H1 H2 [|i] t' Hi; cbn in *; [injection Hi as <-; exact H1|eauto]. Qed.

Theorem infer_null_real e : forall fuel nm c r g env, infer fuel nm c e = Ok r -> gram_of e = Some g ->
  ctx_real null_real c env -> null_real (get_type r) (lang_of env g).
Proof.
  induction e using nexpr_ind_fix; intros fuel nm c t g env E Hg Hc; try discriminate.
  - injection Hg as <-. intros _. reflexivity.
  - cbn in E. injection Hg as <-. injection E as <-. intros Hn. cbn in *. destruct s; [reflexivity|discriminate].
  - rewrite infer_cat in E.
    destruct (infer fuel (e_name e) c e) as [f'| | |]; try discriminate.
    destruct (nullable (get_type f')) eqn:Hn; [discriminate|].
    destruct (seq_go _ _ _) as [[ts t']| | |] eqn:Es; try discriminate. injection E as <-.
    apply seq_go_keeps_nonnull in Es; [|exact Hn]. intros X. cbn in X. congruence.
  - rewrite infer_alt in E. cbn in Hg. destruct (gram_of e) as [g1|] eqn:Eg; [|discriminate].
    destruct (all_some _) as [gs|] eqn:Egs; [|discriminate]. injection Hg as <-.
    destruct (infer fuel (e_name e) c e) as [f'| | |] eqn:Ef; try discriminate.
    destruct (alt_go _ _ _) as [[ts t']| | |] eqn:Es; try discriminate. injection E as <-. cbn [get_type].
    rewrite lang_of_alt. cbn [lang_alts].
    eapply alt_go_null in Es; [exact Es| |exact Egs|eapply IHe; eauto].
    eapply Forall_impl; [|eassumption]. cbn. intros x Hx r' g' Hr' Hg'. eapply Hx; eauto.
  - rewrite infer_fix in E. cbn in Hg. destruct (gram_of e) as [g1|] eqn:Eg; [|discriminate].
    cbn in Hg. injection Hg as <-.
    destruct (fix_loop _ _ _) as [r| | |] eqn:Ef; try discriminate. injection E as <-. cbn [get_type].
    revert Ef. apply (fix_loop_inv (fun t => null_real t (lang_of env (GFix g1)))); [|discriminate].
    intros t r' Ht Hr' Hn. apply lang_fix_unfold. revert Hn.
    eapply IHe; eauto. apply ctx_real_push; auto.
  - rewrite infer_fix in E. destruct e; try discriminate. exfalso. eapply H; reflexivity.
  - cbn in E. unfold get_variable_type in E. destruct (nth_error (vars c) i) as [t'|] eqn:Ei; [|discriminate].
    destruct (Nat.leb _ _); [|discriminate]. injection E as <-. injection Hg as <-. cbn [get_type lang_of].
    apply Hc. exact Ei.
Qed.

(** ** First and flast sets are exact when every sub-grammar has a word *)
Definition real (t : ty) (L : lang) : Prop :=
  (nullable t = true -> L [])
  /\ (forall c, In c (first_set t) -> exists w, L (c :: w))
  /\ (forall c, In c (flast_set t) -> exists u v, u <> [] /\ L u /\ L (u ++ c :: v)).

Lemma real_ext t L M : (forall w, L w <-> M w) -> real t L -> real t M.
Proof.
  intros H (R1 & R2 & R3). split; [|split].
  - intros Hn. apply H; auto.
  - intros c Hc. destruct (R2 c Hc) as [w Hw]. exists w. apply H; auto.
  - intros c Hc. destruct (R3 c Hc) as (u & v & Hu & H1 & H2). exists u, v. rewrite <- !H. auto.
Qed.

Lemma real_cat s t L M : nullable s = false -> real s L -> real t M -> (exists w, L w) -> (exists w, M w) ->
  (forall w, L w -> w <> []) -> real (ty_cat s t) (lang_cat L M).
Proof.
  intros Hns (A1 & A2 & A3) (B1 & B2 & B3) (wl & Hl) (wm & Hm) Hne. split; [|split]; cbn; rewrite ?Hns; cbn.
  - discriminate.
  - intros c Hc. destruct (A2 c Hc) as [w Hw]. exists (w ++ wm), (c :: w), wm. auto.
  - intros c Hc.
    assert (K : In c (flast_set t) \/ nullable t = true /\ (In c (first_set t) \/ In c (flast_set s))).
    { destruct (nullable t); [|auto]. rewrite !cset_union_In in Hc. tauto. }
    destruct K as [K|[Hn [K|K]]].
    + destruct (B3 c K) as (u & v & Hu & H1 & H2). exists (wl ++ u), v. split; [|split].
      * intros E. apply app_eq_nil in E. tauto.
      * exists wl, u. auto.
      * exists wl, (u ++ c :: v). rewrite <- app_assoc. auto.
    + destruct (B2 c K) as [w Hw]. exists wl, w. split; [auto|]. split.
      * exists wl, []. rewrite app_nil_r. auto.
      * exists wl, (c :: w). auto.
    + destruct (A3 c K) as (u & v & Hu & H1 & H2). exists u, v. split; [auto|]. split.
      * exists u, []. rewrite app_nil_r. auto.
      * exists (u ++ c :: v), []. rewrite app_nil_r. auto.
Qed.

Lemma real_alt s t L M : real s L -> real t M -> real (ty_alt s t) (fun w => L w \/ M w).
Proof.
  intros (A1 & A2 & A3) (B1 & B2 & B3). split; [|split]; cbn.
  - intros Hn. apply orb_true_iff in Hn as [Hn|Hn]; auto.
  - intros c Hc. apply cset_union_In in Hc as [Hc|Hc]; [destruct (A2 c Hc)|destruct (B2 c Hc)]; eauto.
  - intros c Hc. apply cset_union_In in Hc as [Hc|Hc];
      [destruct (A3 c Hc) as (u & v & ? & ? & ?)|destruct (B3 c Hc) as (u & v & ? & ? & ?)]; exists u, v; auto.
Qed.

Fixpoint productives (env : list lang) (gs : list gram) : Prop :=
  match gs with [] => True | g :: gs' => productive env g /\ productives env gs' end.
Lemma productive_cat env gs : productive env (GCat gs) <-> (exists w, lang_of env (GCat gs) w) /\ productives env gs.
Proof.
  assert (H : (fix go l := match l with [] => True | g :: l' => productive env g /\ go l' end) gs = productives env gs).
  { induction gs as [|g gs IH]; cbn [productives]; [reflexivity|]. rewrite <- IH. reflexivity. }
  rewrite <- H. reflexivity.
Qed.
Lemma productive_alt env gs : productive env (GAlt gs) <-> (exists w, lang_of env (GAlt gs) w) /\ productives env gs.
Proof.
  assert (H : (fix go l := match l with [] => True | g :: l' => productive env g /\ go l' end) gs = productives env gs).
  { induction gs as [|g gs IH]; cbn [productives]; [reflexivity|]. rewrite <- IH. reflexivity. }
  rewrite <- H. reflexivity.
Qed.
Lemma productive_word env g : productive env g -> exists w, lang_of env g w.
Proof. destruct g; cbn; tauto. Qed.

Lemma seq_go_real inf env G l gs s s' t ts t' L :
  Forall (fun x => forall r g, inf (snd x) = Ok r -> gram_of (snd x) = Some g -> productive env g -> (exists s, typed G g s) -> real (get_type r) (lang_of env g)) l ->
  all_some (map (fun x => gram_of (snd x)) l) = Some gs -> productives env gs -> typed_seq G s gs s' ->
  nullable t = false -> real t L -> (exists w, L w) -> (forall w, L w -> w <> []) ->
  seq_go inf t l = Ok (ts, t') -> real t' (lang_cat L (lang_cats env gs)).
Proof.
  intros H. revert gs s t ts L; induction H as [|[p e] l He Hl IH]; intros gs s t ts L Hgs Hp Hty Hn HL Hw Hne E; cbn [map all_some seq_go] in *.
  - injection Hgs as <-. injection E as _ <-. cbn. eapply real_ext; [|exact HL]. intros w. symmetry. apply lang_cat_eps_r.
  - cbn [snd] in *. destruct (gram_of e) as [g|]; [|discriminate].
    destruct (all_some _) as [gs'|]; [|discriminate]. injection Hgs as <-. cbn in Hp. destruct Hp as [Hp1 Hp2].
    inversion Hty as [|? ? ? ? s1 ? Hg1 Hsep Hrest]; subst.
    destruct (inf e) as [r| | |]; try discriminate.
    destruct (cset_disjoint _ _); [|discriminate].
    destruct (seq_go inf _ l) as [[ts1 t1]| | |] eqn:E1; try discriminate. injection E as _ <-.
    cbn [lang_cats]. eapply real_ext; [intros w; apply lang_cat_assoc|].
    pose proof (productive_word _ _ Hp1) as Hg.
    eapply IH; [reflexivity|exact Hp2|exact Hrest| | | | |exact E1].
    + cbn. rewrite Hn. reflexivity.
    + apply real_cat; eauto.
    + destruct Hw as [w1 Hw1], Hg as [w2 Hw2]. exists (w1 ++ w2), w1, w2. auto.
    + intros w (u & v & -> & Hu & Hv) E. apply app_eq_nil in E as [-> _]. apply (Hne [] Hu). reflexivity.
Qed.

Lemma alt_go_real inf env G l gs s s' t ts t' L :
  Forall (fun x => forall r g, inf (snd x) = Ok r -> gram_of (snd x) = Some g -> productive env g -> (exists s, typed G g s) -> real (get_type r) (lang_of env g)) l ->
  all_some (map (fun x => gram_of (snd x)) l) = Some gs -> productives env gs -> typed_branches G s gs s' ->
  real t L -> alt_go inf t l = Ok (ts, t') -> real t' (fun w => L w \/ lang_alts env gs w).
Proof.
  intros H. revert gs s t ts L; induction H as [|[p e] l He Hl IH]; intros gs s t ts L Hgs Hp Hty HL E; cbn [map all_some alt_go] in *.
  - injection Hgs as <-. injection E as _ <-. cbn. eapply real_ext; [|exact HL]. intros w. unfold lang_empty. tauto.
  - cbn [snd] in *. destruct (gram_of e) as [g|]; [|discriminate].
    destruct (all_some _) as [gs'|]; [|discriminate]. injection Hgs as <-. cbn in Hp. destruct Hp as [Hp1 Hp2].
    inversion Hty as [|? ? ? ? s1 ? Hg1 Hsep Hrest]; subst.
    destruct (inf e) as [r| | |]; try discriminate. destruct (_ && _); [discriminate|].
    destruct (cset_disjoint _ _); [|discriminate].
    destruct (alt_go inf _ l) as [[ts1 t1]| | |] eqn:E1; try discriminate. injection E as _ <-.
    cbn [lang_alts].
    apply (real_ext _ (fun w => (L w \/ lang_of env g w) \/ lang_alts env gs' w)); [intros w; tauto|].
    eapply IH; [reflexivity|exact Hp2|exact Hrest| |exact E1]. apply real_alt; eauto.
Qed.

Theorem infer_real e : forall fuel nm c r g G s env, infer fuel nm c e = Ok r -> gram_of e = Some g ->
  productive env g -> typed G g s -> describes_env G env ->
  ctx_real real c env -> real (get_type r) (lang_of env g).
Proof.
  induction e using nexpr_ind_fix; intros fuel nm c t g G s0 env E Hg Hp Hty Hd Hc; try discriminate.
  - injection Hg as <-. cbn in E. injection E as <-. cbn. split; [|split]; cbn; auto; tauto.
  - cbn in E. injection Hg as <-. injection E as <-. cbn. split; [|split]; cbn.
    + destruct s; [reflexivity|discriminate].
    + intros ch Hch. apply cset_of_str_In in Hch as [w ->]. eauto.
    + tauto.
  - rewrite infer_cat in E. cbn in Hg. destruct (gram_of e) as [g1|] eqn:Eg; [|discriminate].
    destruct (all_some _) as [gs|] eqn:Egs; [|discriminate]. injection Hg as <-.
    apply productive_cat in Hp as [_ [Hp1 Hp2]].
    inversion Hty as [| | |? ? ? t1 ? Hf Hnull Hrest| |]; subst.
    destruct (infer fuel (e_name e) c e) as [f'| | |] eqn:Ef; try discriminate.
    destruct (nullable (get_type f')) eqn:Hn; [discriminate|].
    destruct (seq_go _ _ _) as [[ts t']| | |] eqn:Es; try discriminate. injection E as <-. cbn [get_type].
    rewrite lang_of_cat. cbn [lang_cats].
    eapply (seq_go_real _ env (unguard G)) in Es; [exact Es| |exact Egs|exact Hp2|exact Hrest|exact Hn|eapply IHe; eauto| |].
    + eapply Forall_impl; [|eassumption]. cbn. intros x Hx r' g' Hr' Hg' Hpg [sx Hsx].
      eapply Hx; eauto. apply describes_env_unguard. exact Hd.
    + apply productive_word. exact Hp1.
    + pose proof (proj1 typed_describes _ _ _ Hf env Hd) as (D1 & _). intros w Hw ->. auto.
  - rewrite infer_alt in E. cbn in Hg. destruct (gram_of e) as [g1|] eqn:Eg; [|discriminate].
    destruct (all_some _) as [gs|] eqn:Egs; [|discriminate]. injection Hg as <-.
    apply productive_alt in Hp as [_ [Hp1 Hp2]].
    inversion Hty as [| | | |? ? ? t1 ? Hf Hrest|]; subst.
    destruct (infer fuel (e_name e) c e) as [f'| | |] eqn:Ef; try discriminate.
    destruct (alt_go _ _ _) as [[ts t']| | |] eqn:Es; try discriminate. injection E as <-. cbn [get_type].
    rewrite lang_of_alt. cbn [lang_alts].
    eapply (alt_go_real _ env G) in Es; [exact Es| |exact Egs|exact Hp2|exact Hrest|eapply IHe; eauto].
    eapply Forall_impl; [|eassumption]. cbn. intros x Hx r' g' Hr' Hg' Hpg [sx Hsx]. eapply Hx; eauto.
  - rewrite infer_fix in E. cbn in Hg. destruct (gram_of e) as [g1|] eqn:Eg; [|discriminate].
    cbn in Hg. injection Hg as <-.
    destruct (fix_loop _ _ _) as [r| | |] eqn:Ef; try discriminate. injection E as <-. cbn [get_type].
    cbn in Hp. destruct Hp as [_ Hp].
    pose proof (proj1 typed_describes _ _ _ Hty env Hd) as HdL.
    inversion Hty as [| | | | |? ? ? s1 Hb Heq]; subst.
    revert Ef. apply (fix_loop_inv (fun t => real t (lang_of env (GFix g1)))).
    + intros t r' Ht Hr'. eapply real_ext; [intros w; symmetry; apply lang_fix_unfold|].
      eapply IHe; eauto; [constructor; auto|]. apply ctx_real_push; auto.
    + split; [|split]; cbn; try tauto. discriminate.
  - rewrite infer_fix in E. destruct e; try discriminate. exfalso. eapply H; reflexivity.
  - cbn in E. unfold get_variable_type in E. destruct (nth_error (vars c) i) as [t'|] eqn:Ei; [|discriminate].
    destruct (Nat.leb _ _); [|discriminate]. injection E as <-. injection Hg as <-. cbn [get_type lang_of].
    apply Hc. exact Ei.
Qed.

(** ** Left recursion *)
Fixpoint exposes_cats (env : list lang) (gs : list gram) (i : nat) : Prop :=
  match gs with [] => False | g :: gs' => exposes env g i \/ (lang_of env g [] /\ exposes_cats env gs' i) end.
Fixpoint exposes_alts (env : list lang) (gs : list gram) (i : nat) : Prop :=
  match gs with [] => False | g :: gs' => exposes env g i \/ exposes_alts env gs' i end.
Lemma exposes_cat env gs i : exposes env (GCat gs) i = exposes_cats env gs i.
Proof. cbn. induction gs as [|g gs IH]; cbn; [reflexivity|]. rewrite <- IH. reflexivity. Qed.
Lemma exposes_alt env gs i : exposes env (GAlt gs) i = exposes_alts env gs i.
Proof. cbn. induction gs as [|g gs IH]; cbn; [reflexivity|]. rewrite <- IH. reflexivity. Qed.
Fixpoint left_recs (env : list lang) (gs : list gram) : Prop :=
  match gs with [] => False | g :: gs' => left_recursive env g \/ left_recs env gs' end.
Lemma left_rec_cat env gs : left_recursive env (GCat gs) = left_recs env gs.
Proof. cbn. induction gs as [|g gs IH]; cbn; [reflexivity|]. rewrite <- IH. reflexivity. Qed.
Lemma left_rec_alt env gs : left_recursive env (GAlt gs) = left_recs env gs.
Proof. cbn. induction gs as [|g gs IH]; cbn; [reflexivity|]. rewrite <- IH. reflexivity. Qed.

Definition usable (G : tenv) (i : nat) : Prop := exists t, nth_error G i = Some (true, t).

Theorem typed_guarded :
  (forall G g s, typed G g s -> forall env, describes_env G env ->
     (forall i, exposes env g i -> usable G i) /\ ~ left_recursive env g) /\
  (forall G s gs s', typed_seq G s gs s' -> forall env, describes_env G env -> ~ left_recs env gs) /\
  (forall G s gs s', typed_branches G s gs s' -> forall env, describes_env G env ->
     (forall i, exposes_alts env gs i -> usable G i) /\ ~ left_recs env gs).
Proof.
  apply typed_mutind.
  - intros G env _. split; [intros i []|intros []].
  - intros G s env _. split; [intros i []|intros []].
  - intros G i t Hi env _. split; [|intros []]. intros j ->. exists t. exact Hi.
  - intros G g gs t1 t Hg IHg Hnull Hs IHs env He.
    destruct (IHg env He) as [H1 H2]. specialize (IHs env (describes_env_unguard _ _ He)).
    rewrite left_rec_cat. split.
    + intros i. rewrite exposes_cat. cbn. intros [Hi|[Hi _]]; [auto|].
      exfalso. apply Hnull. apply (proj1 typed_describes _ _ _ Hg env He). exact Hi.
    + cbn. tauto.
  - intros G g gs t1 t Hg IHg Hs IHs env He.
    destruct (IHg env He) as [H1 H2]. destruct (IHs env He) as [H3 H4].
    rewrite left_rec_alt. split.
    + intros i. rewrite exposes_alt. cbn. intros [Hi|Hi]; auto.
    + cbn. tauto.
  - intros G g t t' Hg IHg Heq env He.
    destruct (IHg (lang_of env (GFix g) :: env)) as [H1 H2].
    { constructor; [|exact He]. cbn [snd]. apply (proj1 typed_describes G (GFix g) t); [|exact He].
      econstructor; eauto. }
    split.
    + intros i Hi. apply H1 in Hi as [x Hx]. exists x. exact Hx.
    + cbn. intros [Hi|Hi]; [|tauto]. apply H1 in Hi as [x Hx]. discriminate.
  - intros G t env He [].
  - intros G t g gs t1 t' Hg IHg Hsep Hs IHs env He [H|H]; [eapply IHg; eauto|eapply IHs; eauto].
  - intros G t env He. split; [intros i []|intros []].
  - intros G t g gs t1 t' Hg IHg Hsep Hs IHs env He.
    destruct (IHg env He) as [H1 H2]. destruct (IHs env He) as [H3 H4]. split.
    + intros i [Hi|Hi]; auto.
    + intros [H|H]; auto.
Qed.

(** ** Guarded equations have one solution *)
Definition agree (k : nat) (L M : lang) : Prop := forall w, length w < k -> (L w <-> M w).
Definition agree_env (k : nat) (G : tenv) (E F : list lang) : Prop :=
  forall i b t, nth_error G i = Some (b, t) ->
    agree (if b then S k else k) (nth i E lang_empty) (nth i F lang_empty).

Lemma agree_le k k' L M : k' <= k -> agree k L M -> agree k' L M.
Proof. intros Hle H w Hw. apply H. lia. Qed.

Lemma agree_env_unguard k G E F : agree_env (S k) G E F -> agree_env k (unguard G) E F.
Proof.
  intros H i b t Hi. unfold unguard in Hi. rewrite nth_error_map in Hi.
  destruct (nth_error G i) as [[b' t']|] eqn:Ei; [|discriminate]. cbn in Hi. injection Hi as <- <-.
  specialize (H i b' t' Ei). eapply agree_le; [|exact H]. destruct b'; lia.
Qed.

Lemma agree_cat k L L' M M' : agree (S k) L L' -> agree k M M' -> ~ L [] -> agree (S k) (lang_cat L M) (lang_cat L' M').
Proof.
  intros HL HM Hn w Hw. split; intros (u & v & -> & Hu & Hv); rewrite app_length in Hw.
  - destruct u as [|c u]; [tauto|]. cbn in Hw. exists (c :: u), v. repeat split.
    + apply HL; [cbn; lia|exact Hu].
    + apply HM; [lia|exact Hv].
  - assert (Hu' : L u) by (apply HL; [lia|exact Hu]).
    destruct u as [|c u]; [tauto|]. cbn in Hw. exists (c :: u), v. repeat split; auto. apply HM; [lia|exact Hv].
Qed.

Lemma agree_cat_all k L L' M M' : agree k L L' -> agree k M M' -> agree k (lang_cat L M) (lang_cat L' M').
Proof.
  intros HL HM w Hw. split; intros (u & v & -> & Hu & Hv); rewrite app_length in Hw; exists u, v;
    (split; [reflexivity|]); (split; [apply HL|apply HM]; auto; lia).
Qed.

Theorem typed_agree :
  (forall G g s, typed G g s -> forall k E F, describes_env G E -> agree_env k G E F ->
     agree (S k) (lang_of E g) (lang_of F g)) /\
  (forall G s gs s', typed_seq G s gs s' -> forall k E F, describes_env G E -> agree_env k G E F ->
     agree (S k) (lang_cats E gs) (lang_cats F gs)) /\
  (forall G s gs s', typed_branches G s gs s' -> forall k E F, describes_env G E -> agree_env k G E F ->
     agree (S k) (lang_alts E gs) (lang_alts F gs)).
Proof.
  apply typed_mutind.
  - intros G k E F _ _ w _. reflexivity.
  - intros G s k E F _ _ w _. reflexivity.
  - intros G i t Hi k E F _ Ha. exact (Ha i true t Hi).
  - intros G g gs t1 t Hg IHg Hnull Hs IHs k E F HE Ha. rewrite !lang_of_cat. cbn [lang_cats].
    apply agree_cat; [apply IHg; auto| |].
    + destruct k as [|k]; [intros w Hw; lia|].
      apply IHs; [apply describes_env_unguard; exact HE|apply agree_env_unguard; exact Ha].
    + intros H. apply Hnull. apply (proj1 typed_describes _ _ _ Hg E HE). exact H.
  - intros G g gs t1 t Hg IHg Hs IHs k E F HE Ha. rewrite !lang_of_alt. cbn [lang_alts].
    intros w Hw. rewrite (IHg k E F HE Ha w Hw), (IHs k E F HE Ha w Hw). reflexivity.
  - intros G g t t' Hg IHg Heq k E F HE Ha.
    assert (Hn : forall n, describes t (approx E g n) /\ agree (S k) (approx E g n) (approx F g n)).
    { induction n as [|n [IH1 IH2]]; [split; [apply describes_empty|intros w _; reflexivity]|].
      rewrite !approx_S. split.
      - eapply describes_le; [apply Heq|]. apply (proj1 typed_describes _ _ _ Hg). constructor; auto.
      - apply IHg; [constructor; auto|].
        intros [|i] b s Hi; cbn in Hi |- *; [injection Hi as <- <-|exact (Ha i b s Hi)].
        eapply agree_le; [|exact IH2]. lia. }
    intros w Hw. rewrite !lang_of_fix. split; intros [n H]; exists n; apply (proj2 (Hn n) w Hw); exact H.
  - intros G t k E F _ _ w _. reflexivity.
  - intros G t g gs t1 t' Hg IHg Hsep Hs IHs k E F HE Ha. cbn [lang_cats]. apply agree_cat_all; auto.
  - intros G t k E F _ _ w _. reflexivity.
  - intros G t g gs t1 t' Hg IHg Hsep Hs IHs k E F HE Ha. cbn [lang_alts].
    intros w Hw. rewrite (IHg k E F HE Ha w Hw), (IHs k E F HE Ha w Hw). reflexivity.
Qed.

Theorem typed_fix_unique G g s env M : typed G (GFix g) s -> describes_env G env ->
  (forall w, M w <-> lang_of (M :: env) g w) -> forall w, M w <-> lang_of env (GFix g) w.
Proof.
  intros Hty HE HM.
  pose proof (proj1 typed_describes _ _ _ Hty env HE) as HdL.
  inversion Hty as [| | | | |? ? ? s1 Hb Heq]; subst.
  assert (Hk : forall k, agree k (lang_of env (GFix g)) M).
  { induction k as [|k IH]; [intros w Hw; lia|].
    intros w Hw. rewrite HM, lang_fix_unfold.
    apply (proj1 typed_agree _ _ _ Hb k); [constructor; auto| |exact Hw].
    intros [|i] b t Hi; cbn in Hi |- *; [injection Hi as <- <-; exact IH|intros v Hv; reflexivity]. }
  intros w. symmetry. apply (Hk (S (length w))). lia.
Qed.

(** ** Accepted grammars are closed *)
Fixpoint closeds (n : nat) (gs : list gram) : Prop :=
  match gs with [] => True | g :: gs' => closed_below n g /\ closeds n gs' end.
Lemma closed_cat n gs : closed_below n (GCat gs) = closeds n gs.
Proof. cbn. induction gs as [|g gs IH]; cbn; [reflexivity|]. rewrite <- IH. reflexivity. Qed.
Lemma closed_alt n gs : closed_below n (GAlt gs) = closeds n gs.
Proof. cbn. induction gs as [|g gs IH]; cbn; [reflexivity|]. rewrite <- IH. reflexivity. Qed.
Lemma unguard_length G : length (unguard G) = length G.
Proof. apply map_length. Qed.

Theorem typed_closed :
  (forall G g s, typed G g s -> closed_below (length G) g) /\
  (forall G s gs s', typed_seq G s gs s' -> closeds (length G) gs) /\
  (forall G s gs s', typed_branches G s gs s' -> closeds (length G) gs).
Proof.
  apply typed_mutind; intros; rewrite ?closed_cat, ?closed_alt, ?unguard_length in *; cbn in *; auto.
  apply nth_error_Some. congruence.
Qed.
