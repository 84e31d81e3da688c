(** * ReduceMore: idempotence, the type checker after reduction, error spans. *)
From Verif Require Import ReduceFacts BetaFacts StepFacts InferFacts SpecSimple.
From Coq Require Import Lia.

(** The grammar of an expression is the grammar of its erasure. *)
Lemma gram_of_lgram e : gram_of e = lgram (erase e).
Proof.
  assert (HL : forall r, Forall (fun x : span * nexpr => gram_of (snd x) = lgram (erase (snd x))) r ->
    all_some (map (fun x : span * nexpr => gram_of (snd x)) r) = each lgram (map (fun x => erase (snd x)) r)).
  { induction 1 as [| [p x] r Hx _ IH]; [reflexivity |]. cbn [map all_some each snd] in *. rewrite Hx.
    destruct (lgram (erase x)); [| reflexivity]. rewrite IH. now destruct (each lgram _). }
  induction e using nexpr_ind_fix; try reflexivity.
  - cbn [gram_of erase lgram each]. rewrite IHe, HL by assumption. destruct (lgram (erase e)); [| reflexivity].
    now destruct (each lgram _).
  - cbn [gram_of erase lgram each]. rewrite IHe, HL by assumption. destruct (lgram (erase e)); [| reflexivity].
    now destruct (each lgram _).
  - cbn [gram_of erase lgram]. now rewrite IHe.
  - destruct e; try reflexivity. exfalso. eapply H. reflexivity.
Qed.

(** ** Idempotence *)
Lemma evaluated_reduce e : evaluated (erase e) -> exists m, reduce m e = Ok e.
Proof.
  enough (H : (evaluated (erase e) -> exists m, reduce m e = Ok e) /\
    match e with ELam _ _ b => evaluated (erase b) -> exists m, reduce m b = Ok b | _ => True end) by apply H.
  assert (HL : forall r, Forall (fun x : span * nexpr => (evaluated (erase (snd x)) -> exists m, reduce m (snd x) = Ok (snd x)) /\
    match snd x with ELam _ _ b => evaluated (erase b) -> exists m, reduce m b = Ok b | _ => True end) r ->
    Forall evaluated (map (fun x => erase (snd x)) r) ->
    exists m, reduce_list (part m) r = Ok r).
  { induction 1 as [| [p x] r [Hx _] _ IH]; intros He; [now exists 0 |]. inversion He; subst.
    destruct (Hx H1) as [m1 E1]. destruct (IH H2) as [m2 E2]. exists (max m1 m2). cbn [reduce_list fst snd] in *.
    rewrite (mono_ok m1 _ x _ (Nat.le_max_l _ _) E1). cbn [res_map].
    now rewrite (parts_ok_mono m2 _ r _ (Nat.le_max_r _ _) E2). }
  induction e as [a | a s | a f r IHf Hr | a f r IHf Hr | a i IH | a i | a o l IH Hl | a ns i IH | a nm y z IHy IHz] using nexpr_ind';
    (split; [intros He | try exact Logic.I]); try (exists 1; reflexivity); try (now elim He).
  - cbn [erase evaluated] in He. destruct He as [H1 H2]. apply evaluated_list in H2.
    destruct IHf as [IHf _]. destruct (IHf H1) as [m1 E1]. destruct (HL r Hr H2) as [m2 E2].
    exists (S (max m1 m2)). cbn [reduce]. rewrite (mono_ok m1 _ f _ (Nat.le_max_l _ _) E1). cbn [res_bind].
    now rewrite (parts_ok_mono m2 _ r _ (Nat.le_max_r _ _) E2).
  - cbn [erase evaluated] in He. destruct He as [H1 H2]. apply evaluated_list in H2.
    destruct IHf as [IHf _]. destruct (IHf H1) as [m1 E1]. destruct (HL r Hr H2) as [m2 E2].
    exists (S (max m1 m2)). cbn [reduce]. rewrite (mono_ok m1 _ f _ (Nat.le_max_l _ _) E1). cbn [res_bind].
    now rewrite (parts_ok_mono m2 _ r _ (Nat.le_max_r _ _) E2).
  - cbn [erase evaluated] in He. destruct He as [H1 H2]. destruct IH as [IH1 IH2]. destruct (IH1 H1) as [m1 E1].
    destruct i; try (exists (S m1); cbn [reduce]; rewrite E1; reflexivity).
    destruct (IH2 H2) as [m2 E2]. exists (S (max m1 m2)). cbn [reduce].
    rewrite (mono_ok m1 _ _ _ (Nat.le_max_l _ _) E1). cbn [res_bind].
    now rewrite (mono_ok m2 _ _ _ (Nat.le_max_r _ _) E2).
  - apply IH.
Qed.

(** ** Type inference of an evaluated expression *)
Definition call_or_let (x : type_error) : Prop :=
  match x with UnexpectedCall _ _ | UnexpectedLet _ _ => True | _ => False end.
Lemma evaluated_infer e : evaluated (erase e) -> forall fuel nm c x, infer fuel nm c e = Err x -> ~ call_or_let x.
Proof.
  assert (HS : forall inf l, Forall (fun y : span * nexpr => forall x, inf (snd y) = Err x -> ~ call_or_let x) l ->
    forall t x, seq_go inf t l = Err x -> ~ call_or_let x).
  { intros inf l H. induction H as [| [p e0] l He Hl IH]; intros t x Hx; cbn in Hx; [discriminate |]. cbn in He.
    destruct (inf e0) as [r | y | |] eqn:E; try discriminate Hx.
    - destruct (cset_disjoint _ _); [| injection Hx as <-; cbn; tauto].
      destruct (seq_go inf _ l) as [[? ?] | z | |] eqn:F; try discriminate Hx. injection Hx as <-. eapply IH; eassumption.
    - injection Hx as <-. now apply He. }
  assert (HA : forall inf l, Forall (fun y : span * nexpr => forall x, inf (snd y) = Err x -> ~ call_or_let x) l ->
    forall t x, alt_go inf t l = Err x -> ~ call_or_let x).
  { intros inf l H. induction H as [| [p e0] l He Hl IH]; intros t x Hx; cbn in Hx; [discriminate |]. cbn in He.
    destruct (inf e0) as [r | y | |] eqn:E; try discriminate Hx.
    - destruct (_ && _); [injection Hx as <-; cbn; tauto |].
      destruct (cset_disjoint _ _); [| injection Hx as <-; cbn; tauto].
      destruct (alt_go inf _ l) as [[? ?] | z | |] eqn:F; try discriminate Hx. injection Hx as <-. eapply IH; eassumption.
    - injection Hx as <-. now apply He. }
  assert (HF : forall st, (forall t x, st t = Err x -> ~ call_or_let x) -> forall n t x, fix_loop st n t = Err x -> ~ call_or_let x).
  { intros st H. induction n as [| n IH]; intros t x Hx; cbn in Hx; [discriminate |].
    destruct (st t) eqn:E; try discriminate Hx.
    - destruct (ty_eqb _ _); [discriminate Hx |]. eapply IH; eassumption.
    - injection Hx as <-. eapply H; eassumption. }
  assert (FL : forall r (Q : nexpr -> Prop), Forall (fun x : span * nexpr => evaluated (erase (snd x)) -> Q (snd x)) r ->
    Forall evaluated (map (fun x => erase (snd x)) r) -> Forall (fun x => Q (snd x)) r).
  { induction 1; intros He; inversion He; subst; constructor; auto. }
  induction e using nexpr_ind_fix; intros He fuel nm c x Hx; try discriminate Hx.
  - cbn [erase evaluated] in He. destruct He as [H1 H2]. apply evaluated_list in H2.
    rewrite infer_cat in Hx. destruct (infer fuel (e_name e) c e) as [f' | y | |] eqn:E; try discriminate Hx.
    + destruct (nullable _); [injection Hx as <-; cbn; tauto |].
      destruct (seq_go _ _ r) as [[? ?] | y | |] eqn:F; try discriminate Hx. injection Hx as <-. eapply HS; [| exact F].
      refine (FL r (fun z => forall x, infer fuel (e_name z) (push_unguard c) z = Err x -> ~ call_or_let x) _ H2).
      eapply Forall_impl; [| exact H]. cbn. intros z Hz Ez x. now apply Hz.
    + injection Hx as <-. eapply IHe; eauto.
  - cbn [erase evaluated] in He. destruct He as [H1 H2]. apply evaluated_list in H2.
    rewrite infer_alt in Hx. destruct (infer fuel (e_name e) c e) as [f' | y | |] eqn:E; try discriminate Hx.
    + destruct (alt_go _ _ r) as [[? ?] | y | |] eqn:F; try discriminate Hx. injection Hx as <-. eapply HA; [| exact F].
      refine (FL r (fun z => forall x, infer fuel (e_name z) c z = Err x -> ~ call_or_let x) _ H2).
      eapply Forall_impl; [| exact H]. cbn. intros z Hz Ez x. now apply Hz.
    + injection Hx as <-. eapply IHe; eauto.
  - rewrite infer_fix in Hx. cbn [erase evaluated] in He. destruct He as [_ He].
    destruct (fix_loop _ _ _) as [r | y | |] eqn:F; try discriminate Hx. injection Hx as <-.
    eapply HF; [| exact F]. intros t z. now apply IHe.
  - rewrite infer_fix in Hx. destruct e; try (injection Hx as <-; cbn; tauto). exfalso. eapply H. reflexivity.
  - cbn in Hx. destruct (get_variable_type c i); try discriminate Hx. injection Hx as <-. cbn. tauto.
  - elim He.
  - injection Hx as <-. cbn. tauto.
  - elim He.
Qed.

(** ** Where an error points *)
Fixpoint calls_at (P : span -> Prop) (e : nexpr) : Prop :=
  match e with
  | EEps _ | ELit _ _ | EVar _ _ => True
  | ECat _ f r | EAlt _ f r => calls_at P f /\ (fix go (l : list (span * nexpr)) := match l with [] => True | (_, x) :: l' => calls_at P x /\ go l' end) r
  | EFix _ i | ELam _ _ i => calls_at P i
  | ECall a o l => P (a_span a) /\ calls_at P o /\ (fix go (l : list nexpr) := match l with [] => True | x :: l' => calls_at P x /\ go l' end) l
  | ELet _ _ x y => calls_at P x /\ calls_at P y
  end.
Lemma calls_parts P r : (fix go (l : list (span * nexpr)) := match l with [] => True | (_, x) :: l' => calls_at P x /\ go l' end) r
  <-> Forall (fun x => calls_at P (snd x)) r.
Proof.
  induction r as [| [p x] r IH]; split; intros H; auto.
  - destruct H. constructor; [assumption | now apply IH].
  - inversion H; subst. split; [assumption | now apply IH].
Qed.
Lemma calls_list P r : (fix go (l : list nexpr) := match l with [] => True | x :: l' => calls_at P x /\ go l' end) r
  <-> Forall (calls_at P) r.
Proof.
  induction r as [| x r IH]; split; intros H; auto.
  - destruct H. constructor; [assumption | now apply IH].
  - inversion H; subst. split; [assumption | now apply IH].
Qed.
Lemma map_opt_Forall {A B} (f : A -> option B) (P : A -> Prop) (Q : B -> Prop) l : forall l',
  Forall (fun x => forall y, f x = Some y -> P x -> Q y) l -> map_opt f l = Some l' -> Forall P l -> Forall Q l'.
Proof.
  induction l as [| x l IH]; intros l' H E HP; cbn in E.
  - injection E as <-. constructor.
  - inversion H; subst. inversion HP; subst. destruct (f x) eqn:F; [| discriminate E].
    destruct (map_opt f l) eqn:G; [| discriminate E]. injection E as <-. constructor; [now apply H2 |]. now apply IH.
Qed.
Lemma calls_rename P dir n e : forall d e', rename_vars dir n d e = Some e' -> calls_at P e -> calls_at P e'.
Proof.
  assert (HP : forall d r r', Forall (fun x : span * nexpr => forall d e', rename_vars dir n d (snd x) = Some e' -> calls_at P (snd x) -> calls_at P e') r ->
    map_opt (fun x : span * nexpr => option_map (pair (fst x)) (rename_vars dir n d (snd x))) r = Some r' ->
    Forall (fun x => calls_at P (snd x)) r -> Forall (fun x => calls_at P (snd x)) r').
  { intros d r r' H E. eapply map_opt_Forall; [| exact E]. eapply Forall_impl; [| exact H]. cbn.
    intros [p x] Hx [q y] Hy. cbn in *. destruct (rename_vars dir n d x) eqn:F; [| discriminate Hy]. injection Hy as <- <-. eauto. }
  induction e as [a | a s | a f r IHf Hr | a f r IHf Hr | a i IH | a i | a o l IH Hl | a ns i IH | a nm y z IHy IHz] using nexpr_ind';
    intros d e' E H; cbn [rename_vars] in E.
  - injection E as <-. exact H.
  - injection E as <-. exact H.
  - destruct (rename_vars dir n d f) eqn:F; [| discriminate E]. destruct (map_opt _ r) eqn:G; [| discriminate E]. injection E as <-.
    cbn [calls_at] in *. rewrite calls_parts in *. destruct H. split; eauto.
  - destruct (rename_vars dir n d f) eqn:F; [| discriminate E]. destruct (map_opt _ r) eqn:G; [| discriminate E]. injection E as <-.
    cbn [calls_at] in *. rewrite calls_parts in *. destruct H. split; eauto.
  - destruct (rename_vars dir n d i) eqn:F; [| discriminate E]. injection E as <-. cbn in *. eauto.
  - destruct (rename_index dir n d i) eqn:F; [| discriminate E]. injection E as <-. exact Logic.I.
  - destruct (rename_vars dir n d o) eqn:F; [| discriminate E]. destruct (map_opt _ l) eqn:G; [| discriminate E]. injection E as <-.
    cbn [calls_at] in *. rewrite calls_list in *. destruct H as (H1 & H2 & H3). split; [exact H1 |]. split; [eauto |].
    eapply map_opt_Forall; [| exact G | exact H3]. eapply Forall_impl; [| exact Hl]. cbn. intros x Hx y. apply Hx.
  - destruct (rename_vars dir n _ i) eqn:F; [| discriminate E]. injection E as <-. cbn in *. eauto.
  - destruct (rename_vars dir n d y) eqn:F; [| discriminate E]. destruct (rename_vars dir n _ z) eqn:G; [| discriminate E].
    injection E as <-. cbn in *. destruct H. eauto.
Qed.
Lemma calls_set_ann P a e : match e with ECall _ _ _ => False | _ => True end -> calls_at P e -> calls_at P (set_ann a e).
Proof. destruct e; cbn; tauto. Qed.
Lemma calls_set_name P nm e : calls_at P e -> calls_at P (set_name nm e).
Proof. destruct e; cbn; auto. Qed.

Lemma fold_list_Forall {A S} (f : A -> S -> option (A * S)) (P : A -> Prop) (st : S) l : forall l' st',
  Forall (fun x => P x -> exists y, f x st = Some (y, st) /\ P y) l ->
  Forall P l -> fold_list f l st = Some (l', st') -> Forall P l'.
Proof.
  induction l as [| x l IH]; intros l' st' H HP E; cbn in E.
  - injection E as <- <-. constructor.
  - inversion H; subst. inversion HP; subst. destruct (H2 H4) as (y & F & Hy). rewrite F in E.
    destruct (fold_list f l st) as [[ys st2] |] eqn:G; [| discriminate E]. injection E as <- <-. constructor; [assumption |].
    eapply IH; eauto.
Qed.
Lemma calls_substitute P e : forall k x, calls_at P e -> calls_at P x ->
  exists e', substitute e (Subst k x) = Some (e', Subst k x) /\ calls_at P e'.
Proof.
  assert (HW : forall i, (forall k x, calls_at P i -> calls_at P x -> exists e', substitute i (Subst k x) = Some (e', Subst k x) /\ calls_at P e') ->
     forall n k x, calls_at P i -> calls_at P x -> exists i', with_args n (substitute i) (Subst k x) = Some (i', Subst k x) /\ calls_at P i').
  { intros i Hi n k x Ci Cx. unfold with_args. cbn [s_expr s_index]. destruct (deepen0 n x) as (x' & E & _ & Sx). rewrite E.
    destruct (Hi (k + n) x' Ci (calls_rename _ _ _ _ _ _ E Cx)) as (i' & -> & Ci'). cbn [s_expr s_index]. rewrite Sx.
    replace (Nat.leb n (k + n)) with true by (symmetry; apply Nat.leb_le; lia). exists i'. split; [do 3 f_equal; lia | assumption]. }
  induction e as [a | a s | a f r IHf Hr | a f r IHf Hr | a i IH | a i | a o l IH Hl | a ns i IH | a nm y z IHy IHz] using nexpr_ind';
    intros k x Ce Cx.
  - eexists; split; [reflexivity | exact Ce].
  - eexists; split; [reflexivity | exact Ce].
  - destruct (substitute_ok (ECat a f r) k x) as (e' & E & _). exists e'. split; [exact E |].
    cbn [calls_at] in Ce. rewrite calls_parts in Ce. destruct Ce as [C1 C2].
    cbn [substitute] in E. destruct (IHf k x C1 Cx) as (f' & F & Cf). rewrite F in E.
    destruct (fold_list _ r _) as [[r' st] |] eqn:G; [| discriminate E]. injection E as <- ->.
    cbn [calls_at]. rewrite calls_parts. split; [exact Cf |].
    refine (fold_list_Forall _ _ _ r _ _ _ C2 G). eapply Forall_impl; [| exact Hr]. cbn. intros [p y] Hy Cy. cbn in *.
    destruct (Hy k x Cy Cx) as (y' & -> & Cy'). exists (p, y'). auto.
  - destruct (substitute_ok (EAlt a f r) k x) as (e' & E & _). exists e'. split; [exact E |].
    cbn [calls_at] in Ce. rewrite calls_parts in Ce. destruct Ce as [C1 C2].
    cbn [substitute] in E. destruct (IHf k x C1 Cx) as (f' & F & Cf). rewrite F in E.
    destruct (fold_list _ r _) as [[r' st] |] eqn:G; [| discriminate E]. injection E as <- ->.
    cbn [calls_at]. rewrite calls_parts. split; [exact Cf |].
    refine (fold_list_Forall _ _ _ r _ _ _ C2 G). eapply Forall_impl; [| exact Hr]. cbn. intros [p y] Hy Cy. cbn in *.
    destruct (Hy k x Cy Cx) as (y' & -> & Cy'). exists (p, y'). auto.
  - cbn [substitute]. destruct (IH k x Ce Cx) as (i' & -> & Ci). eexists; split; [reflexivity | exact Ci].
  - cbn [substitute s_index s_expr]. destruct (Nat.eqb i k); eexists; (split; [reflexivity |]).
    + now apply calls_set_name.
    + exact Logic.I.
  - destruct (substitute_ok (ECall a o l) k x) as (e' & E & _). exists e'. split; [exact E |].
    cbn [calls_at] in Ce. rewrite calls_list in Ce. destruct Ce as (C0 & C1 & C2).
    cbn [substitute] in E. destruct (IH k x C1 Cx) as (f' & F & Cf). rewrite F in E.
    destruct (fold_list _ l _) as [[r' st] |] eqn:G; [| discriminate E]. injection E as <- ->.
    cbn [calls_at]. rewrite calls_list. split; [exact C0 |]. split; [exact Cf |].
    refine (fold_list_Forall _ _ _ l _ _ _ C2 G). eapply Forall_impl; [| exact Hl]. cbn. intros y Hy Cy. now apply Hy.
  - cbn [substitute]. destruct (HW i IH (length ns) k x Ce Cx) as (i' & -> & Ci). eexists; split; [reflexivity | exact Ci].
  - cbn [substitute]. destruct Ce as [C1 C2]. destruct (IHy k x C1 Cx) as (y' & -> & Cy).
    destruct (HW z IHz 1 k x C2 Cx) as (z' & -> & Cz). eexists; split; [reflexivity | split; assumption].
Qed.
Lemma calls_bind P l : forall inner out, Forall (fun x => calls_at P (snd (fst x))) l -> calls_at P inner ->
  bind_args l inner = Some out -> calls_at P out.
Proof.
  induction l as [| [[i arg] nm] l IH]; intros inner out Hl Hi E; cbn [bind_args] in E.
  - now injection E as <-.
  - inversion Hl; subst. cbn in H1. destruct (rename_vars _ _ _ _) as [arg' |] eqn:F; [| discriminate E].
    apply (calls_rename P) in F; [| now apply calls_set_name].
    destruct (calls_substitute P inner 0 arg' Hi F) as (out' & G & Co). rewrite G in E. eapply IH; eauto.
Qed.
Lemma combine_args_In {A B C} (l : list A) (m : list B) (n : list C) x : In x (combine (combine l m) n) -> In (snd (fst x)) m.
Proof.
  destruct x as [[a b] c]. intros H. apply in_combine_l in H. apply in_combine_r in H. exact H.
Qed.
Lemma reduce_calls P n : forall e, calls_at P e ->
  match reduce n e with Ok v => calls_at P v | Err x => P (err_span x) | _ => True end.
Proof.
  induction n as [| n IH]; intros e Ce; [exact Logic.I |].
  assert (HP : forall r, Forall (fun x : span * nexpr => calls_at P (snd x)) r ->
    match reduce_list (part n) r with Ok r' => Forall (fun x => calls_at P (snd x)) r' | Err x => P (err_span x) | _ => True end).
  { induction 1 as [| [p x] r Hx _ IHr]; cbn [reduce_list fst snd]; [constructor |]. specialize (IH x Hx).
    destruct (reduce n x); cbn [res_map]; auto. destruct (reduce_list _ r); auto. }
  destruct e as [a | a s | a f r | a f r | a i | a i | a o l | a ns i | a nm y z]; try exact Ce.
  - cbn [calls_at] in Ce. rewrite calls_parts in Ce. destruct Ce as [C1 C2]. cbn [reduce].
    specialize (IH f C1). destruct (reduce n f); cbn [res_bind]; auto. specialize (HP r C2).
    destruct (reduce_list _ r); cbn [res_map]; auto. cbn [calls_at]. rewrite calls_parts. auto.
  - cbn [calls_at] in Ce. rewrite calls_parts in Ce. destruct Ce as [C1 C2]. cbn [reduce].
    specialize (IH f C1). destruct (reduce n f); cbn [res_bind]; auto. specialize (HP r C2).
    destruct (reduce_list _ r); cbn [res_map]; auto. cbn [calls_at]. rewrite calls_parts. auto.
  - cbn [reduce]. pose proof (IH i Ce) as Hi. destruct (reduce n i) as [i' | | |]; cbn [res_bind]; auto.
    destruct i' as [| | | | | | | b ns j |]; auto. specialize (IH j Hi). destruct (reduce n j); cbn [res_map]; auto.
  - rewrite reduce_call. destruct Ce as (C0 & C1 & C2). apply calls_list in C2. pose proof (IH o C1) as Ho.
    destruct (reduce n o) as [o' | | |]; cbn [res_bind]; auto. destruct o' as [| | | | | | | b ns j |]; auto.
    destruct (Nat.eqb_spec (length ns) (length l)) as [L | L]; [| exact C0].
    destruct (bind_args _ j) as [out |] eqn:B; [| exact Logic.I].
    apply (calls_bind P) in B; [| | exact Ho].
    + pose proof (IH out B) as Hv. pose proof (reduce_sound n out) as Hs. destruct (reduce n out) as [v | | |]; cbn [res_map]; auto.
      apply calls_set_ann; [| exact Hv]. cbn in Hs. apply evals_evaluated in Hs. destruct v; auto.
    + apply Forall_forall. intros x Hx. apply in_rev in Hx. apply combine_args_In in Hx. now apply (proj1 (Forall_forall _ _) C2).
  - rewrite reduce_let. destruct Ce as [C1 C2]. destruct (calls_substitute P z 0 y C2 C1) as (out & -> & Co).
    pose proof (IH out Co) as Hv. pose proof (reduce_sound n out) as Hs. destruct (reduce n out) as [v | | |]; cbn [res_map]; auto.
    apply calls_set_ann; [| exact Hv]. cbn in Hs. apply evals_evaluated in Hs. destruct v; auto.
Qed.
Lemma calls_at_spans e : forall P : span -> Prop, (forall s, In s (call_spans e) -> P s) -> calls_at P e.
Proof.
  induction e as [a | a s | a f r IHf Hr | a f r IHf Hr | a i IH | a i | a o l IH Hl | a ns i IH | a nm y z IHy IHz] using nexpr_ind';
    intros P H; cbn [calls_at call_spans] in *; auto.
  - rewrite calls_parts. split; [apply IHf; intros; apply H, in_or_app; auto |].
    rewrite Forall_forall in *. intros x Hx. apply Hr; [exact Hx |]. intros s Hs. apply H, in_or_app. right. apply in_flat_map. eauto.
  - rewrite calls_parts. split; [apply IHf; intros; apply H, in_or_app; auto |].
    rewrite Forall_forall in *. intros x Hx. apply Hr; [exact Hx |]. intros s Hs. apply H, in_or_app. right. apply in_flat_map. eauto.
  - rewrite calls_list. split; [apply H; now left |]. split; [apply IH; intros; apply H; right; apply in_or_app; auto |].
    rewrite Forall_forall in *. intros x Hx. apply Hl; [exact Hx |]. intros s Hs. apply H. right. apply in_or_app. right. apply in_flat_map. eauto.
  - split; [apply IHy | apply IHz]; intros; apply H, in_or_app; auto.
Qed.
