(** * LangFacts: languages and trees of grammars. *)
From Verif Require Export SpecTyping.

(** Induction on grammars with the nested lists. *)
Section GramInd.
  Variable P : gram -> Prop.
  Hypothesis Heps : P GEps.
  Hypothesis Hlit : forall s, P (GLit s).
  Hypothesis Hcat : forall l, Forall P l -> P (GCat l).
  Hypothesis Halt : forall l, Forall P l -> P (GAlt l).
  Hypothesis Hfix : forall g, P g -> P (GFix g).
  Hypothesis Hvar : forall i, P (GVar i).
  Fixpoint gram_ind' (g : gram) : P g :=
    match g with
    | GEps => Heps
    | GLit s => Hlit s
    | GCat l => Hcat l ((fix go l : Forall P l :=
                           match l with [] => Forall_nil _ | x :: l' => Forall_cons _ (gram_ind' x) (go l') end) l)
    | GAlt l => Halt l ((fix go l : Forall P l :=
                           match l with [] => Forall_nil _ | x :: l' => Forall_cons _ (gram_ind' x) (go l') end) l)
    | GFix g => Hfix g (gram_ind' g)
    | GVar i => Hvar i
    end.
End GramInd.

Fixpoint lang_cats (env : list lang) (gs : list gram) : lang :=
  match gs with
  | [] => fun w => w = []
  | g :: gs' => lang_cat (lang_of env g) (lang_cats env gs')
  end.
Fixpoint lang_alts (env : list lang) (gs : list gram) : lang :=
  match gs with
  | [] => lang_empty
  | g :: gs' => fun w => lang_of env g w \/ lang_alts env gs' w
  end.
Lemma lang_of_cat env gs : lang_of env (GCat gs) = lang_cats env gs.
Proof. cbn [lang_of]. induction gs as [|g gs IH]; cbn [lang_cats]; [reflexivity|]. rewrite <- IH. reflexivity. Qed.
Lemma lang_of_alt env gs : lang_of env (GAlt gs) = lang_alts env gs.
Proof. cbn [lang_of]. induction gs as [|g gs IH]; cbn [lang_alts]; [reflexivity|]. rewrite <- IH. reflexivity. Qed.

Definition lang_le (L M : lang) : Prop := forall w, L w -> M w.
Definition lenv_le (E F : list lang) : Prop := forall i, lang_le (nth i E lang_empty) (nth i F lang_empty).

Lemma lenv_le_cons L M E F : lang_le L M -> lenv_le E F -> lenv_le (L :: E) (M :: F).
Proof. intros H1 H2 [|i]; cbn; [exact H1|apply H2]. Qed.
Lemma lenv_le_refl E : lenv_le E E.
Proof. intros i w H. exact H. Qed.
Lemma lang_cat_mono L L' M M' : lang_le L L' -> lang_le M M' -> lang_le (lang_cat L M) (lang_cat L' M').
Proof. intros H1 H2 w (u & v & -> & Hu & Hv). exists u, v. auto. Qed.

Lemma lang_of_mono g : forall E F, lenv_le E F -> lang_le (lang_of E g) (lang_of F g).
Proof.
  induction g using gram_ind'; intros E F HE w Hw.
  - exact Hw.
  - exact Hw.
  - rewrite lang_of_cat in *. revert w Hw. induction H as [|g l Hg Hl IH]; intros w Hw; cbn in *; [exact Hw|].
    revert w Hw. apply lang_cat_mono; [apply Hg; exact HE|exact IH].
  - rewrite lang_of_alt in *. induction H as [|g l Hg Hl IH]; cbn in *; [exact Hw|].
    destruct Hw as [Hw|Hw]; [left; eapply Hg; eauto|right; auto].
  - cbn in *. destruct Hw as (n & Hn). exists n. revert w Hn.
    induction n as [|n IHn]; intros w Hn; cbn in *; [exact Hn|].
    revert Hn. apply IHg. apply lenv_le_cons; auto.
  - exact (HE i w Hw).
Qed.

(** The finite unfoldings of a fixed point. *)
Definition approx (env : list lang) (g : gram) (n : nat) : lang :=
  Nat.iter n (fun X : lang => lang_of (X :: env) g) lang_empty.
Lemma lang_of_fix env g w : lang_of env (GFix g) w <-> exists n, approx env g n w.
Proof. reflexivity. Qed.
Lemma approx_S env g n : approx env g (S n) = lang_of (approx env g n :: env) g.
Proof. reflexivity. Qed.
Lemma approx_step env g n : lang_le (approx env g n) (approx env g (S n)).
Proof.
  induction n as [|n IH]; [intros w []|].
  rewrite (approx_S env g (S n)), (approx_S env g n). apply lang_of_mono, lenv_le_cons; [exact IH|apply lenv_le_refl].
Qed.
Lemma approx_mono env g n m : n <= m -> lang_le (approx env g n) (approx env g m).
Proof.
  induction 1 as [|m Hle IH]; [intros w H; exact H|].
  intros w Hw. apply approx_step. apply IH. exact Hw.
Qed.
Lemma approx_mono_env E F g n : lenv_le E F -> lang_le (approx E g n) (approx F g n).
Proof.
  intros H. induction n as [|n IH]; [intros w []|]. rewrite !approx_S. apply lang_of_mono, lenv_le_cons; auto.
Qed.

(** Continuity: a word needs only one element of an increasing chain of environments. *)
Definition chain (E : nat -> list lang) : Prop := forall n m, n <= m -> lenv_le (E n) (E m).
Definition limit (E : nat -> list lang) (F : list lang) : Prop :=
  forall i w, nth i F lang_empty w -> exists n, nth i (E n) lang_empty w.

Lemma lang_of_cont g : forall E F w, chain E -> limit E F -> lang_of F g w -> exists n, lang_of (E n) g w.
Proof.
  induction g using gram_ind'; intros E F w HE HF Hw.
  - exists 0. exact Hw.
  - exists 0. exact Hw.
  - rewrite lang_of_cat in Hw. enough (exists n, lang_cats (E n) l w) as [n Hn] by (exists n; rewrite lang_of_cat; exact Hn).
    revert w Hw. induction H as [|g l Hg Hl IH]; intros w Hw; cbn in *; [exists 0; exact Hw|].
    destruct Hw as (u & v & -> & Hu & Hv).
    destruct (Hg E F u HE HF Hu) as [n1 H1]. destruct (IH v Hv) as [n2 H2].
    exists (Nat.max n1 n2), u, v. split; [reflexivity|]. split.
    + eapply lang_of_mono; [|exact H1]. apply HE. lia.
    + rewrite <- lang_of_cat in H2 |- *. eapply lang_of_mono; [|exact H2]. apply HE. lia.
  - rewrite lang_of_alt in Hw. enough (exists n, lang_alts (E n) l w) as [n Hn] by (exists n; rewrite lang_of_alt; exact Hn).
    induction H as [|g l Hg Hl IH]; cbn in *; [destruct Hw|].
    destruct Hw as [Hw|Hw].
    + destruct (Hg E F w HE HF Hw) as [n Hn]. exists n. left. exact Hn.
    + destruct (IH Hw) as [n Hn]. exists n. right. exact Hn.
  - rewrite lang_of_fix in Hw. destruct Hw as [k Hk].
    enough (exists n, approx (E n) g k w) as [n Hn] by (exists n; rewrite lang_of_fix; exists k; exact Hn).
    revert w Hk. induction k as [|k IHk]; intros w Hk; [destruct Hk|].
    rewrite approx_S in Hk.
    destruct (IHg (fun n => approx (E n) g k :: E n) (approx F g k :: F) w) as [n Hn].
    + intros n m Hle. apply lenv_le_cons; [apply approx_mono_env|]; apply HE; exact Hle.
    + intros [|i] v Hv; cbn in *; [apply IHk; exact Hv|apply HF; exact Hv].
    + exact Hk.
    + exists n. exact Hn.
  - apply HF. exact Hw.
Qed.

(** A fixed point is a solution of its equation... *)
Theorem lang_fix_unfold env g w :
  lang_of env (GFix g) w <-> lang_of (lang_of env (GFix g) :: env) g w.
Proof.
  split.
  - intros [n Hn]. destruct n as [|n]; [destruct Hn|].
    change (approx env g (S n) w) in Hn. rewrite approx_S in Hn.
    revert Hn. apply lang_of_mono, lenv_le_cons; [|apply lenv_le_refl]. intros v Hv. exists n. exact Hv.
  - intros Hw. destruct (lang_of_cont g (fun n => approx env g n :: env) (lang_of env (GFix g) :: env) w) with (3 := Hw) as [n Hn].
    + intros n m Hle. apply lenv_le_cons; [apply approx_mono; exact Hle|apply lenv_le_refl].
    + intros [|i] v Hv; cbn in *; [exact Hv|exists 0; exact Hv].
    + exists (S n). exact Hn.
Qed.

(** ... and the least one. *)
Theorem lang_fix_least env g M :
  (forall w, lang_of (M :: env) g w -> M w) -> forall w, lang_of env (GFix g) w -> M w.
Proof.
  intros HM w [n Hn]. revert w Hn. change (lang_le (approx env g n) M).
  induction n as [|n IH]; [intros w []|]. rewrite approx_S. intros w Hw. apply HM.
  revert Hw. apply lang_of_mono, lenv_le_cons; [exact IH|apply lenv_le_refl].
Qed.

(** ** Languages described by types *)
Lemma describes_le s t L : st_le s t -> describes s L -> describes t L.
Proof.
  intros (H1 & H2 & H3) (D1 & D2 & D3). split; [|split].
  - auto.
  - intros c w Hw. eauto.
  - intros u c v Hu H4 H5. eauto.
Qed.

Lemma describes_eps : describes st_eps (fun w => w = []).
Proof. split; [|split]; cbn; try congruence. auto. Qed.

Lemma describes_lit s : describes (st_lit s) (fun w => w = s).
Proof.
  split; [|split]; cbn.
  - auto.
  - intros c w <-. eauto.
  - intros u c v Hu -> H. apply (f_equal (@length N)) in H. rewrite app_length in H. cbn in H. lia.
Qed.

Lemma app_eq_cases {A} (a b c d : list A) : a ++ b = c ++ d ->
  (a = c /\ b = d) \/ (exists x l, a = c ++ x :: l /\ d = x :: l ++ b) \/ (exists x l, c = a ++ x :: l /\ b = x :: l ++ d).
Proof.
  revert c; induction a as [|x a IH]; intros [|y c] H; cbn in H.
  - auto.
  - right. right. exists y, c. subst b. auto.
  - right. left. exists x, a. subst d. auto.
  - injection H as -> H. apply IH in H as [[-> ->]|[(z & l & -> & ->)|(z & l & -> & ->)]].
    + auto.
    + right. left. exists z, l. auto.
    + right. right. exists z, l. auto.
Qed.

Lemma describes_cat a b L M : describes a L -> describes b M -> separable a b ->
  describes (st_cat a b) (lang_cat L M).
Proof.
  intros (A1 & A2 & A3) (B1 & B2 & B3) [S1 S2]. split; [|split]; cbn.
  - intros (u & v & E & Hu & Hv). symmetry in E. apply app_eq_nil in E as [-> ->]. auto.
  - intros c w (u & v & E & Hu & Hv). destruct u as [|d u].
    + exfalso. auto.
    + injection E as -> _. left. eauto.
  - intros u c v Hne (u1 & u2 & -> & H1 & H2) (w1 & w2 & E & H3 & H4).
    rewrite <- app_assoc in E.
    apply app_eq_cases in E as [[-> E]|[(x & l & -> & E)|(x & l & -> & E)]].
    + destruct u2 as [|y u2]; cbn in E.
      * right. split; [auto|]. left. subst w2. eauto.
      * left. subst w2. apply (B3 (y :: u2) c v); auto. discriminate.
    + exfalso. apply (S2 x); [|subst w2; eauto].
      apply (A3 w1 x l); auto. intros ->. auto.
    + assert (s_flast a x) by (apply (A3 u1 x l); auto; intros ->; auto).
      destruct u2 as [|y u2]; cbn in E; injection E as -> E.
      * right. split; auto.
      * exfalso. apply (S2 x); eauto.
Qed.

Lemma describes_alt a b L M : describes a L -> describes b M -> apart a b ->
  describes (st_alt a b) (fun w => L w \/ M w).
Proof.
  intros (A1 & A2 & A3) (B1 & B2 & B3) [S1 S2]. split; [|split]; cbn.
  - intros [H|H]; auto.
  - intros c w [H|H]; eauto.
  - intros u c v Hne [H1|H1] [H2|H2]; eauto.
    + destruct u as [|x u]; [congruence|]. exfalso. apply (S2 x); eauto.
    + destruct u as [|x u]; [congruence|]. exfalso. apply (S2 x); eauto.
Qed.

Lemma describes_chain s (L : nat -> lang) : (forall n m, n <= m -> lang_le (L n) (L m)) ->
  (forall n, describes s (L n)) -> describes s (fun w => exists n, L n w).
Proof.
  intros Hm H. split; [|split].
  - intros [n Hn]. apply (H n). exact Hn.
  - intros c w [n Hn]. eapply (H n). exact Hn.
  - intros u c v Hne [n Hn] [m Hm']. apply (H (Nat.max n m)) with (u := u) (v := v); auto.
    + apply (Hm n); [lia|exact Hn].
    + apply (Hm m); [lia|exact Hm'].
Qed.

Lemma describes_ext s L M : (forall w, L w <-> M w) -> describes s L -> describes s M.
Proof.
  intros H (D1 & D2 & D3). split; [|split].
  - intros Hw. apply D1, H, Hw.
  - intros c w Hw. eapply D2, H, Hw.
  - intros u c v Hne H1 H2. apply (D3 u c v Hne); apply H; assumption.
Qed.

Lemma describes_empty s : describes s lang_empty.
Proof. split; [|split]; cbn; unfold lang_empty; tauto. Qed.

Definition describes_env (G : tenv) (env : list lang) : Prop :=
  Forall2 (fun x L => describes (snd x) L) G env.

Lemma describes_env_unguard G env : describes_env G env -> describes_env (unguard G) env.
Proof. unfold describes_env, unguard. induction 1; constructor; auto. Qed.

Lemma lang_cat_assoc L M N w : lang_cat (lang_cat L M) N w <-> lang_cat L (lang_cat M N) w.
Proof.
  split.
  - intros (x & v & -> & (u & y & -> & Hu & Hy) & Hv). exists u, (y ++ v).
    rewrite app_assoc. repeat split; auto. exists y, v. auto.
  - intros (u & x & -> & Hu & (y & v & -> & Hy & Hv)). exists (u ++ y), v.
    rewrite app_assoc. repeat split; auto. exists u, y. auto.
Qed.
Lemma lang_cat_eps_r L w : lang_cat L (fun w => w = []) w <-> L w.
Proof.
  split.
  - intros (u & v & -> & Hu & ->). rewrite app_nil_r. exact Hu.
  - intros H. exists w, []. rewrite app_nil_r. auto.
Qed.
Lemma lang_cat_ext L L' M M' w : (forall w, L w <-> L' w) -> (forall w, M w <-> M' w) ->
  lang_cat L M w <-> lang_cat L' M' w.
Proof. intros H1 H2. split; intros (u & v & -> & Hu & Hv); exists u, v; rewrite ?H1, ?H2 in *; auto. Qed.

(** Accepted grammars are described by their types. *)
Theorem typed_describes :
  (forall G g s, typed G g s -> forall env, describes_env G env -> describes s (lang_of env g)) /\
  (forall G s gs s', typed_seq G s gs s' -> forall env L, describes_env G env -> describes s L ->
     describes s' (lang_cat L (lang_cats env gs))) /\
  (forall G s gs s', typed_branches G s gs s' -> forall env L, describes_env G env -> describes s L ->
     describes s' (fun w => L w \/ lang_alts env gs w)).
Proof.
  apply typed_mutind.
  - intros G env _. apply describes_eps.
  - intros G s env _. apply describes_lit.
  - intros G i t Hi env He. cbn. revert i Hi. induction He as [|x L G env Hx He IH]; intros [|i] Hi; try discriminate.
    + injection Hi as ->. exact Hx.
    + apply IH. exact Hi.
  - intros G g gs t1 t Hg IHg Hnull Hs IHs env He. rewrite lang_of_cat. cbn [lang_cats].
    apply IHs; [apply describes_env_unguard; exact He|]. apply IHg. exact He.
  - intros G g gs t1 t Hg IHg Hs IHs env He. rewrite lang_of_alt. cbn [lang_alts].
    apply IHs; [exact He|]. apply IHg. exact He.
  - intros G g t t' Hg IHg Heq env He.
    apply (describes_ext _ (fun w => exists n, approx env g n w)); [reflexivity|].
    apply describes_chain; [apply approx_mono|].
    induction n as [|n IHn]; [apply describes_empty|]. rewrite approx_S.
    eapply describes_le; [apply Heq|]. apply IHg. constructor; [exact IHn|exact He].
  - intros G t env L He HL. cbn. eapply describes_ext; [|exact HL]. intros w. symmetry. apply lang_cat_eps_r.
  - intros G t g gs t1 t' Hg IHg Hsep Hs IHs env L He HL. cbn [lang_cats].
    eapply describes_ext; [intros w; apply lang_cat_assoc|].
    apply IHs; [exact He|]. apply describes_cat; auto.
  - intros G t env L He HL. cbn. eapply describes_ext; [|exact HL]. intros w. unfold lang_empty. tauto.
  - intros G t g gs t1 t' Hg IHg Hsep Hs IHs env L He HL. cbn [lang_alts].
    apply (describes_ext _ (fun w => (L w \/ lang_of env g w) \/ lang_alts env gs w)); [intros w; tauto|].
    apply IHs; [exact He|]. apply describes_alt; auto.
Qed.
