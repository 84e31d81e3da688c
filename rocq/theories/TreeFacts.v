(** * TreeFacts: parse trees of grammars. *)
From Verif Require Export LangFacts.

Fixpoint trees_cats (env : list treeset) (gs : list gram) : list tree -> Prop :=
  match gs with
  | [] => fun ts => ts = []
  | g :: gs' => fun ts => exists t ts', ts = t :: ts' /\ trees_of env g t /\ trees_cats env gs' ts'
  end.
Fixpoint trees_alts (env : list treeset) (k : nat) (gs : list gram) : treeset :=
  match gs with
  | [] => treeset_empty
  | g :: gs' => fun t => (exists t', t = NAlt k t' /\ trees_of env g t') \/ trees_alts env (S k) gs' t
  end.
Lemma trees_of_cat env gs t : trees_of env (GCat gs) t <-> exists ts, t = NCat ts /\ trees_cats env gs ts.
Proof.
  cbn [trees_of].
  assert (H : forall ts, (fix cat l : list tree -> Prop :=
       match l with
       | [] => fun ts => ts = []
       | g :: l' => fun ts => exists t ts', ts = t :: ts' /\ trees_of env g t /\ cat l' ts'
       end) gs ts <-> trees_cats env gs ts).
  { induction gs as [|g gs IH]; intros ts; [reflexivity|].
    split; intros (t' & ts' & -> & H1 & H2); exists t', ts'; (split; [reflexivity|]); (split; [exact H1|]);
      apply IH; exact H2. }
  split; intros (ts & -> & Hts); exists ts; (split; [reflexivity|]); apply H; exact Hts.
Qed.
Lemma trees_of_alt env gs : trees_of env (GAlt gs) = trees_alts env 0 gs.
Proof.
  cbn [trees_of]. generalize 0 as k. induction gs as [|g gs IH]; intros k; cbn [trees_alts]; [reflexivity|].
  rewrite <- IH. reflexivity.
Qed.

Definition tree_le (L M : treeset) : Prop := forall t, L t -> M t.
Definition trenv_le (E F : list treeset) : Prop := forall i, tree_le (nth i E treeset_empty) (nth i F treeset_empty).
Lemma trenv_le_cons L M E F : tree_le L M -> trenv_le E F -> trenv_le (L :: E) (M :: F).
Proof. intros H1 H2 [|i]; cbn; [exact H1|apply H2]. Qed.
Lemma trenv_le_refl E : trenv_le E E.
Proof. intros i w H. exact H. Qed.

Lemma trees_cats_mono_gen E F gs : Forall (fun g => tree_le (trees_of E g) (trees_of F g)) gs ->
  forall ts, trees_cats E gs ts -> trees_cats F gs ts.
Proof.
  induction 1 as [|g l Hg Hl IH]; intros ts H; cbn in *; [exact H|].
  destruct H as (t & ts' & -> & Ht & Hts). exists t, ts'. auto.
Qed.
Lemma trees_alts_mono_gen E F gs : Forall (fun g => tree_le (trees_of E g) (trees_of F g)) gs ->
  forall k t, trees_alts E k gs t -> trees_alts F k gs t.
Proof.
  induction 1 as [|g l Hg Hl IH]; intros k t H; cbn in *; [exact H|].
  destruct H as [(t' & -> & Ht)|H]; [left; exists t'; auto|right; auto].
Qed.

Lemma trees_of_mono g : forall E F, trenv_le E F -> tree_le (trees_of E g) (trees_of F g).
Proof.
  induction g using gram_ind'; intros E F HE t Ht.
  - exact Ht.
  - exact Ht.
  - rewrite trees_of_cat in *. destruct Ht as (ts & -> & Ht). exists ts. split; [reflexivity|].
    revert Ht. apply trees_cats_mono_gen. eapply Forall_impl; [|exact H]. cbn. auto.
  - rewrite trees_of_alt in *. revert Ht. apply trees_alts_mono_gen. eapply Forall_impl; [|exact H]. cbn. auto.
  - cbn in *. destruct Ht as (n & Hn). exists n. revert t Hn.
    induction n as [|n IHn]; intros t Hn; cbn in *; [exact Hn|].
    revert Hn. apply IHg. apply trenv_le_cons; auto.
  - cbn in *. destruct Ht as (t' & -> & Ht). exists t'. split; [reflexivity|]. exact (HE i t' Ht).
Qed.
Lemma trees_cats_mono gs E F ts : trenv_le E F -> trees_cats E gs ts -> trees_cats F gs ts.
Proof. intros HE. apply trees_cats_mono_gen. rewrite Forall_forall. intros g _. apply trees_of_mono. exact HE. Qed.
Lemma trees_alts_mono gs E F k t : trenv_le E F -> trees_alts E k gs t -> trees_alts F k gs t.
Proof. intros HE. apply trees_alts_mono_gen. rewrite Forall_forall. intros g _. apply trees_of_mono. exact HE. Qed.

Definition tapprox (env : list treeset) (g : gram) (n : nat) : treeset :=
  Nat.iter n (fun X : treeset => trees_of (X :: env) g) treeset_empty.
Lemma trees_of_fix env g t : trees_of env (GFix g) t <-> exists n, tapprox env g n t.
Proof. reflexivity. Qed.
Lemma tapprox_S env g n : tapprox env g (S n) = trees_of (tapprox env g n :: env) g.
Proof. reflexivity. Qed.
Lemma tapprox_step env g n : tree_le (tapprox env g n) (tapprox env g (S n)).
Proof.
  induction n as [|n IH]; [intros w []|].
  rewrite (tapprox_S env g (S n)), (tapprox_S env g n). apply trees_of_mono, trenv_le_cons; [exact IH|apply trenv_le_refl].
Qed.
Lemma tapprox_mono env g n m : n <= m -> tree_le (tapprox env g n) (tapprox env g m).
Proof.
  induction 1 as [|m Hle IH]; [intros w H; exact H|].
  intros w Hw. apply tapprox_step. apply IH. exact Hw.
Qed.
Lemma tapprox_mono_env E F g n : trenv_le E F -> tree_le (tapprox E g n) (tapprox F g n).
Proof.
  intros H. induction n as [|n IH]; [intros w []|]. rewrite !tapprox_S. apply trees_of_mono, trenv_le_cons; auto.
Qed.

Definition tchain (E : nat -> list treeset) : Prop := forall n m, n <= m -> trenv_le (E n) (E m).
Definition tlimit (E : nat -> list treeset) (F : list treeset) : Prop :=
  forall i w, nth i F treeset_empty w -> exists n, nth i (E n) treeset_empty w.

Lemma trees_of_cont g : forall E F t, tchain E -> tlimit E F -> trees_of F g t -> exists n, trees_of (E n) g t.
Proof.
  induction g using gram_ind'; intros E F w HE HF Hw.
  - exists 0. exact Hw.
  - exists 0. exact Hw.
  - rewrite trees_of_cat in Hw. destruct Hw as (ts & -> & Hw).
    enough (exists n, trees_cats (E n) l ts) as [n Hn] by (exists n; rewrite trees_of_cat; eauto).
    revert ts Hw. induction H as [|g l Hg Hl IH]; intros ts Hw; cbn in *; [exists 0; exact Hw|].
    destruct Hw as (t & ts' & -> & Ht & Hts).
    destruct (Hg E F t HE HF Ht) as [n1 H1]. destruct (IH ts' Hts) as [n2 H2].
    exists (Nat.max n1 n2), t, ts'. split; [reflexivity|]. split.
    + eapply trees_of_mono; [|exact H1]. apply HE. lia.
    + eapply trees_cats_mono; [|exact H2]. apply HE. lia.
  - rewrite trees_of_alt in Hw. enough (exists n, trees_alts (E n) 0 l w) as [n Hn] by (exists n; rewrite trees_of_alt; exact Hn).
    revert Hw. generalize 0 as k. induction H as [|g l Hg Hl IH]; intros k Hw; cbn in *; [destruct Hw|].
    destruct Hw as [(t & -> & Hw)|Hw].
    + destruct (Hg E F t HE HF Hw) as [n Hn]. exists n. left. eauto.
    + destruct (IH (S k) Hw) as [n Hn]. exists n. right. exact Hn.
  - rewrite trees_of_fix in Hw. destruct Hw as [k Hk].
    enough (exists n, tapprox (E n) g k w) as [n Hn] by (exists n; rewrite trees_of_fix; exists k; exact Hn).
    revert w Hk. induction k as [|k IHk]; intros w Hk; [destruct Hk|].
    rewrite tapprox_S in Hk.
    destruct (IHg (fun n => tapprox (E n) g k :: E n) (tapprox F g k :: F) w) as [n Hn].
    + intros n m Hle. apply trenv_le_cons; [apply tapprox_mono_env|]; apply HE; exact Hle.
    + intros [|i] v Hv; cbn in *; [apply IHk; exact Hv|apply HF; exact Hv].
    + exact Hk.
    + exists n. exact Hn.
  - cbn in Hw. destruct Hw as (t & -> & Hw). destruct (HF i t Hw) as [n Hn]. exists n. cbn. eauto.
Qed.

Theorem trees_fix_unfold env g w :
  trees_of env (GFix g) w <-> trees_of (trees_of env (GFix g) :: env) g w.
Proof.
  split.
  - intros [n Hn]. destruct n as [|n]; [destruct Hn|].
    change (tapprox env g (S n) w) in Hn. rewrite tapprox_S in Hn.
    revert Hn. apply trees_of_mono, trenv_le_cons; [|apply trenv_le_refl]. intros v Hv. exists n. exact Hv.
  - intros Hw. destruct (trees_of_cont g (fun n => tapprox env g n :: env) (trees_of env (GFix g) :: env) w) with (3 := Hw) as [n Hn].
    + intros n m Hle. apply trenv_le_cons; [apply tapprox_mono; exact Hle|apply trenv_le_refl].
    + intros [|i] v Hv; cbn in *; [exact Hv|exists 0; exact Hv].
    + exists (S n). exact Hn.
Qed.

(** ** The words of a grammar are the yields of its trees *)
Definition yields (T : treeset) : lang := fun w => exists t, T t /\ yield t = w.

Lemma yields_env E i : forall w, nth i (map yields E) lang_empty w <-> yields (nth i E treeset_empty) w.
Proof.
  revert i; induction E as [|T E IH]; intros [|i] w; cbn; try reflexivity; try apply IH;
    split; try (intros (t & [] & _)); intros [].
Qed.

Theorem lang_trees g : forall E w, lang_of (map yields E) g w <-> yields (trees_of E g) w.
Proof.
  induction g using gram_ind'; intros E w.
  - cbn. split; [intros ->; exists NEps; auto|intros (t & -> & <-); reflexivity].
  - cbn. split; [intros ->; exists (NLit s); auto|intros (t & -> & <-); reflexivity].
  - rewrite lang_of_cat. unfold yields at 2.
    assert (Hl : forall w, lang_cats (map yields E) l w <-> exists ts, trees_cats E l ts /\ flat_map yield ts = w).
    { clear w. induction H as [|g l Hg Hl IH]; intros w; cbn.
      - split; [intros ->; exists []; auto|intros (ts & -> & <-); reflexivity].
      - split.
        + intros (u & v & -> & Hu & Hv). apply Hg in Hu as (t & Ht & <-). apply IH in Hv as (ts & Hts & <-).
          exists (t :: ts). split; [exists t, ts; auto|reflexivity].
        + intros (ts & (t & ts' & -> & Ht & Hts) & <-). cbn. exists (yield t), (flat_map yield ts').
          split; [reflexivity|]. split; [apply Hg; exists t; auto|apply IH; exists ts'; auto]. }
    rewrite Hl. split.
    + intros (ts & Hts & <-). exists (NCat ts). rewrite trees_of_cat. split; [eauto|reflexivity].
    + intros (t & Ht & <-). rewrite trees_of_cat in Ht. destruct Ht as (ts & -> & Hts). exists ts. auto.
  - rewrite lang_of_alt, trees_of_alt. generalize 0 as k.
    induction H as [|g l Hg Hl IH]; intros k; cbn.
    + split; [intros []|intros (t & [] & _)].
    + rewrite (IH (S k)), Hg. split.
      * intros [(t & Ht & <-)|(t & Ht & <-)]; [exists (NAlt k t)|exists t]; split; eauto.
      * intros (t & [(t' & -> & Ht)|Ht] & <-); [left; exists t'|right; exists t]; auto.
  - rewrite lang_of_fix. unfold yields at 2.
    assert (Hn : forall n w, approx (map yields E) g n w <-> yields (tapprox E g n) w).
    { clear w. induction n as [|n IHn]; intros w.
      - cbn. split; [intros []|intros (t & [] & _)].
      - rewrite approx_S, tapprox_S. rewrite <- IHg. cbn [map].
        split; apply lang_of_mono, lenv_le_cons; try apply lenv_le_refl; intros v Hv; apply IHn; exact Hv. }
    split.
    + intros (n & Hw). apply Hn in Hw as (t & Ht & <-). exists t. rewrite trees_of_fix. eauto.
    + intros (t & Ht & <-). rewrite trees_of_fix in Ht. destruct Ht as [n Ht]. exists n. apply Hn. exists t. auto.
  - cbn [lang_of]. rewrite yields_env. cbn. split.
    + intros (t & Ht & <-). exists (NBox t). eauto.
    + intros (t & (t' & -> & Ht) & <-). exists t'. auto.
Qed.

Corollary language_trees g w : language g w <-> exists t, parse_tree g t /\ yield t = w.
Proof. apply (lang_trees g []). Qed.

(** ** Accepted grammars are unambiguous *)
Definition unamb (T : treeset) : Prop := forall t1 t2, T t1 -> T t2 -> yield t1 = yield t2 -> t1 = t2.

Definition unamb_env (G : tenv) (E : list treeset) : Prop :=
  Forall2 (fun x T => describes (snd x) (yields T) /\ unamb T) G E.

Lemma unamb_env_unguard G E : unamb_env G E -> unamb_env (unguard G) E.
Proof. unfold unamb_env, unguard. induction 1; constructor; auto. Qed.

Lemma unamb_env_describes G E : unamb_env G E -> describes_env G (map yields E).
Proof. unfold unamb_env, describes_env. induction 1 as [|x T G E [H1 H2] H IH]; constructor; auto. Qed.

Lemma typed_yields G g s E : typed G g s -> unamb_env G E -> describes s (yields (trees_of E g)).
Proof.
  intros Ht HE. eapply describes_ext; [intros w; apply lang_trees|].
  eapply typed_describes; [exact Ht|apply unamb_env_describes; exact HE].
Qed.

(** Splitting a text in one way only. *)
Lemma separable_split s1 s2 L M u v u' v' : describes s1 L -> describes s2 M -> separable s1 s2 ->
  L u -> M v -> L u' -> M v' -> u ++ v = u' ++ v' -> u = u' /\ v = v'.
Proof.
  intros (A1 & A2 & A3) (B1 & B2 & B3) [S1 S2] Hu Hv Hu' Hv' E.
  apply app_eq_cases in E as [?|[(x & l & -> & ->)|(x & l & -> & ->)]]; [auto|exfalso|exfalso].
  - apply (S2 x); [|eauto]. apply (A3 u' x l); auto. intros ->; auto.
  - apply (S2 x); [|eauto]. apply (A3 u x l); auto. intros ->; auto.
Qed.

Theorem typed_unamb :
  (forall G g s, typed G g s -> forall E, unamb_env G E -> unamb (trees_of E g)) /\
  (forall G s gs s', typed_seq G s gs s' -> forall E L, unamb_env G E -> describes s L ->
     forall u u' ts ts', L u -> L u' -> trees_cats E gs ts -> trees_cats E gs ts' ->
       u ++ flat_map yield ts = u' ++ flat_map yield ts' -> u = u' /\ ts = ts') /\
  (forall G s gs s', typed_branches G s gs s' -> forall E T k, unamb_env G E -> describes s (yields T) -> unamb T ->
     unamb (fun t => T t \/ trees_alts E k gs t)).
Proof.
  apply typed_mutind.
  - intros G E _ t1 t2 -> -> _. reflexivity.
  - intros G s E _ t1 t2 -> -> _. reflexivity.
  - intros G i t Hi E HE t1 t2 (t1' & -> & H1) (t2' & -> & H2) Hy. f_equal. cbn in Hy.
    revert H1 H2 Hy. generalize t1' t2'. change (unamb (nth i E treeset_empty)).
    revert i Hi. induction HE as [|x T G E Hx He IH]; intros [|i] Hi; try discriminate.
    + apply Hx.
    + apply IH with (1 := Hi).
  - intros G g gs s1 s Hg IHg Hnull Hs IHs E HE t1 t2 H1 H2 Hy.
    rewrite trees_of_cat in H1, H2. destruct H1 as (ts1 & -> & H1), H2 as (ts2 & -> & H2).
    cbn in H1, H2. destruct H1 as (a & l & -> & Ha & Hl), H2 as (b & m & -> & Hb & Hm). cbn in Hy.
    pose proof (typed_yields _ _ _ _ Hg HE) as Hd.
    destruct (IHs E _ (unamb_env_unguard _ _ HE) Hd (yield a) (yield b) l m) as [H3 H4]; auto.
    { exists a. auto. }
    { exists b. auto. }
    subst m. f_equal. f_equal. apply (IHg E HE); auto.
  - intros G g gs s1 s Hg IHg Hs IHs E HE. rewrite trees_of_alt. cbn [trees_alts].
    apply IHs; [exact HE| |].
    + eapply describes_ext; [|apply (typed_yields _ _ _ _ Hg HE)]. intros w. split.
      * intros (t & Ht & <-). exists (NAlt 0 t). eauto.
      * intros (t & (t' & -> & Ht) & <-). exists t'. auto.
    + intros t1 t2 (t1' & -> & H1) (t2' & -> & H2) Hy. f_equal. apply (IHg E HE); auto.
  - intros G g t t' Hg IHg Heq E HE.
    assert (Hn : forall n, describes t (yields (tapprox E g n)) /\ unamb (tapprox E g n)).
    { induction n as [|n [IH1 IH2]].
      - split; [|intros ? ? []]. eapply describes_ext; [|apply (describes_empty t)].
        intros w. split; [intros []|intros (? & [] & _)].
      - assert (HE' : unamb_env ((false, t) :: G) (tapprox E g n :: E)) by (constructor; auto).
        rewrite tapprox_S. split; [|apply IHg; exact HE'].
        eapply describes_le; [apply Heq|]. eapply typed_yields; eauto. }
    intros t1 t2 [n1 H1] [n2 H2] Hy.
    apply (proj2 (Hn (Nat.max n1 n2))); auto.
    + eapply (tapprox_mono E g n1); [lia|exact H1].
    + eapply (tapprox_mono E g n2); [lia|exact H2].
  - intros G t E L HE HL u u' ts ts' Hu Hu' -> -> Hy. cbn in Hy. rewrite !app_nil_r in Hy. auto.
  - intros G t g gs t1 t' Hg IHg Hsep Hs IHs E L HE HL u u' ts ts' Hu Hu' Hts Hts' Hy.
    cbn in Hts, Hts'. destruct Hts as (a & l & -> & Ha & Hl), Hts' as (b & m & -> & Hb & Hm). cbn in Hy.
    rewrite !app_assoc in Hy.
    pose proof (typed_yields _ _ _ _ Hg HE) as Hd.
    destruct (IHs E (lang_cat L (yields (trees_of E g))) HE (describes_cat _ _ _ _ HL Hd Hsep)
                (u ++ yield a) (u' ++ yield b) l m) as [H3 ->]; auto.
    + exists u, (yield a). repeat split; auto. exists a. auto.
    + exists u', (yield b). repeat split; auto. exists b. auto.
    + destruct (separable_split _ _ _ _ _ _ _ _ HL Hd Hsep Hu (ex_intro _ a (conj Ha eq_refl)) Hu'
                  (ex_intro _ b (conj Hb eq_refl)) H3) as [-> H4].
      split; [reflexivity|]. f_equal. apply (IHg E HE); auto.
  - intros G t E T k HE HT Hun t1 t2 [H1|[]] [H2|[]] Hy. apply Hun; auto.
  - intros G t g gs t1 t' Hg IHg Hsep Hs IHs E T k HE HT Hun. cbn [trees_alts].
    pose proof (typed_yields _ _ _ _ Hg HE) as Hd.
    specialize (IHs E (fun x => T x \/ (exists y, x = NAlt k y /\ trees_of E g y)) (S k) HE).
    assert (Hu : unamb (fun x => (T x \/ exists y, x = NAlt k y /\ trees_of E g y) \/ trees_alts E (S k) gs x)).
    { apply IHs.
      - eapply describes_ext; [|apply (describes_alt _ _ _ _ HT Hd Hsep)]. intros w. split.
        + intros [(x & Hx & <-)|(x & Hx & <-)]; [exists x|exists (NAlt k x)]; split; eauto.
        + intros (x & [Hx|(y & -> & Hy)] & <-); [left; exists x|right; exists y]; auto.
      - intros x y [Hx|(x' & -> & Hx)] [Hy|(y' & -> & Hy)] Hxy.
        + apply Hun; auto.
        + exfalso. destruct HT as (A1 & A2 & _), Hd as (B1 & B2 & _), Hsep as [S1 S2]. cbn in Hxy.
          destruct (yield x) as [|ch w] eqn:Ex.
          * apply S1. split; [apply A1; exists x; auto|apply B1; exists y'; auto].
          * apply (S2 ch); [apply (A2 ch w); exists x; auto|apply (B2 ch w); exists y'; auto].
        + exfalso. destruct HT as (A1 & A2 & _), Hd as (B1 & B2 & _), Hsep as [S1 S2]. cbn in Hxy.
          destruct (yield y) as [|ch w] eqn:Ey.
          * apply S1. split; [apply A1; exists y; auto|apply B1; exists x'; auto].
          * apply (S2 ch); [apply (A2 ch w); exists y; auto|apply (B2 ch w); exists x'; auto].
        + f_equal. apply (IHg E HE); auto. }
    intros x y Hx Hy. apply Hu; tauto.
Qed.
