(** * WtFacts: the typed expressions returned by inference are well typed,
    with concrete [Type] values. *)
From Verif Require Export InferMore Lower.

Definition cenv := list (bool * ty).
Definition ung (G : cenv) : cenv := map (fun x => (true, snd x)) G.

Inductive wt : cenv -> texpr -> Prop :=
| wt_eps G a : wt G (TEps a ty_eps)
| wt_lit G a s : wt G (TLit a s (ty_of_str s))
| wt_var G a i t : nth_error G i = Some (true, t) -> wt G (TVar a i t)
| wt_cat G a e es t : wt G e -> nullable (get_type e) = false -> wt_seq (ung G) (get_type e) es t -> wt G (TCat a (e :: es) t)
| wt_alt G a e es t : wt G e -> wt_branches G (get_type e) es t -> wt G (TAlt a (e :: es) t)
| wt_fix G a i : wt ((false, get_type i) :: G) i -> wt G (TFix a i)
with wt_seq : cenv -> ty -> list texpr -> ty -> Prop :=
| wt_seq_nil G t : wt_seq G t [] t
| wt_seq_cons G t e es t' : wt G e -> cset_disjoint (flast_set t) (first_set (get_type e)) = true ->
    wt_seq G (ty_cat t (get_type e)) es t' -> wt_seq G t (e :: es) t'
with wt_branches : cenv -> ty -> list texpr -> ty -> Prop :=
| wt_branches_nil G t : wt_branches G t [] t
| wt_branches_cons G t e es t' : wt G e -> nullable t && nullable (get_type e) = false ->
    cset_disjoint (first_set t) (first_set (get_type e)) = true ->
    wt_branches G (ty_alt t (get_type e)) es t' -> wt_branches G t (e :: es) t'.

Scheme wt_mind := Induction for wt Sort Prop
with wt_seq_mind := Induction for wt_seq Sort Prop
with wt_branches_mind := Induction for wt_branches Sort Prop.
Combined Scheme wt_mutind from wt_mind, wt_seq_mind, wt_branches_mind.

Definition cenv_of (c : tctx) : cenv :=
  map (fun p => (Nat.leb (length (vars c)) (hd 0 (unguard_points c) + fst p), snd p))
      (combine (seq 0 (length (vars c))) (vars c)).

Lemma cenv_of_nth c i :
  nth_error (cenv_of c) i =
  option_map (fun t => (Nat.leb (length (vars c)) (hd 0 (unguard_points c) + i), t)) (nth_error (vars c) i).
Proof.
  unfold cenv_of. rewrite nth_error_map, combine_seq_nth. destruct (nth_error (vars c) i); reflexivity.
Qed.
Lemma cenv_of_unguard c : cenv_of (push_unguard c) = ung (cenv_of c).
Proof.
  apply nth_error_ext. intros i. unfold ung. rewrite nth_error_map, !cenv_of_nth. cbn [push_unguard vars unguard_points hd].
  destruct (nth_error (vars c) i); cbn; [|reflexivity].
  rewrite (proj2 (Nat.leb_le _ _)) by lia. reflexivity.
Qed.
Lemma cenv_of_var t c : ctx_wf c -> cenv_of (push_var t c) = (false, t) :: cenv_of c.
Proof.
  intros Hwf. apply nth_error_ext. intros [|i]; rewrite cenv_of_nth; cbn [push_var vars unguard_points nth_error length option_map].
  - rewrite (proj2 (Nat.leb_gt _ _)); [reflexivity|]. unfold ctx_wf in Hwf. lia.
  - rewrite cenv_of_nth. destruct (nth_error (vars c) i); cbn [option_map]; [|reflexivity].
    do 2 f_equal. rewrite Nat.add_succ_r. reflexivity.
Qed.

Lemma seq_go_wt inf G l : Forall (fun x => forall r, inf (snd x) = Ok r -> wt G r) l ->
  forall t ts t', seq_go inf t l = Ok (ts, t') -> wt_seq G t ts t'.
Proof.
  induction 1 as [|[p e] l He Hl IH]; intros t ts t' E; cbn in E.
  - injection E as <- <-. constructor.
  - cbn in He. destruct (inf e) as [r| | |]; try discriminate.
    destruct (cset_disjoint _ _) eqn:Hd; [|discriminate].
    destruct (seq_go inf _ l) as [[ts1 t1]| | |] eqn:E1; try discriminate. injection E as <- <-.
    constructor; auto.
Qed.
Lemma alt_go_wt inf G l : Forall (fun x => forall r, inf (snd x) = Ok r -> wt G r) l ->
  forall t ts t', alt_go inf t l = Ok (ts, t') -> wt_branches G t ts t'.
Proof.
  induction 1 as [|[p e] l He Hl IH]; intros t ts t' E; cbn in E.
  - injection E as <- <-. constructor.
  - cbn in He. destruct (inf e) as [r| | |]; try discriminate.
    destruct (_ && _) eqn:Hn; [discriminate|]. destruct (cset_disjoint _ _) eqn:Hd; [|discriminate].
    destruct (alt_go inf _ l) as [[ts1 t1]| | |] eqn:E1; try discriminate. injection E as <- <-.
    constructor; auto.
Qed.

Theorem infer_wt e : forall fuel nm c r, ctx_wf c -> infer fuel nm c e = Ok r -> wt (cenv_of c) r.
Proof.
  induction e using nexpr_ind_fix; intros fuel nm c r0 Hwf Hi; try (cbn in Hi; discriminate).
  - cbn in Hi. injection Hi as <-. constructor.
  - cbn in Hi. injection Hi as <-. constructor.
  - rewrite infer_cat in Hi. destruct (infer fuel (e_name e) c e) as [f'| | |] eqn:Ef; try discriminate.
    destruct (nullable (get_type f')) eqn:En; [discriminate|].
    destruct (seq_go _ _ _) as [[ts t]| | |] eqn:Es; try discriminate. injection Hi as <-.
    constructor; eauto. rewrite <- cenv_of_unguard. eapply seq_go_wt; [|exact Es].
    eapply Forall_impl; [|eassumption]. cbn beta. intros x Hx r' Hr'. eapply Hx; [apply ctx_wf_unguard|exact Hr'].
  - rewrite infer_alt in Hi. destruct (infer fuel (e_name e) c e) as [f'| | |] eqn:Ef; try discriminate.
    destruct (alt_go _ _ _) as [[ts t]| | |] eqn:Es; try discriminate. injection Hi as <-.
    constructor; eauto. eapply alt_go_wt; [|exact Es].
    eapply Forall_impl; [|eassumption]. cbn. intros x Hx r' Hr'. eapply Hx; eauto.
  - rewrite infer_fix in Hi. destruct (fix_loop _ _ _) as [r'| | |] eqn:El; try discriminate. injection Hi as <-.
    constructor. apply fix_loop_ok in El. rewrite <- cenv_of_var by exact Hwf. eapply IHe; eauto using ctx_wf_var.
  - rewrite infer_fix in Hi. destruct e; try discriminate. exfalso. eapply H; reflexivity.
  - cbn in Hi. destruct (get_variable_type c i) eqn:E; try discriminate. injection Hi as <-.
    constructor. rewrite cenv_of_nth. unfold get_variable_type in E.
    destruct (nth_error (vars c) i); [|discriminate]. destruct (Nat.leb _ _) eqn:El; [|discriminate].
    injection E as ->. reflexivity.
Qed.

Corollary typecheck_wt e r : typecheck e = Ok r -> wt [] r.
Proof. intros H. apply infer_wt in H; [exact H|apply ctx_wf_default]. Qed.

(** ** Equality of typed expressions *)
Fixpoint tsize (e : texpr) : nat :=
  match e with
  | TEps _ _ | TLit _ _ _ | TVar _ _ _ => 1
  | TCat _ l _ | TAlt _ l _ => S (list_sum (map tsize l))
  | TFix _ i => S (tsize i)
  end.
Lemma tsize_pos e : 1 <= tsize e.
Proof. destruct e; cbn; lia. Qed.

Definition texprs_eqb := fix go (l l' : list texpr) : bool :=
  match l, l' with
  | [], [] => true
  | a :: l, b :: l' => texpr_eqb a b && go l l'
  | _, _ => false
  end.

(** Same shape: equal up to names and spans. *)
Fixpoint shape (e : texpr) : texpr :=
  match e with
  | TEps _ t => TEps (Ann None call_site) t
  | TLit _ s t => TLit (Ann None call_site) s t
  | TCat _ l t => TCat (Ann None call_site) (map shape l) t
  | TAlt _ l t => TAlt (Ann None call_site) (map shape l) t
  | TFix _ i => TFix (Ann None call_site) (shape i)
  | TVar _ i t => TVar (Ann None call_site) i t
  end.

Lemma shapes_eqb l : Forall (fun x => forall y, texpr_eqb x y = true -> shape x = shape y) l ->
  forall l', texprs_eqb l l' = true -> map shape l = map shape l'.
Proof.
  induction 1 as [|x l Hx Hl IH]; intros [|y l'] H; cbn in *; try discriminate; [reflexivity|].
  apply andb_true_iff in H as [H1 H2]. f_equal; auto.
Qed.
Lemma texpr_eqb_shape x : forall y, texpr_eqb x y = true -> shape x = shape y.
Proof.
  induction x using texpr_ind'; intros y Hy; cbn in Hy; apply andb_true_iff in Hy as [_ Hy];
    destruct y; try discriminate.
  - apply ty_eqb_eq in Hy. subst. reflexivity.
  - apply andb_true_iff in Hy as [H1 H2]. apply rstr_eqb_eq in H1. apply ty_eqb_eq in H2. subst. reflexivity.
  - apply andb_true_iff in Hy as [H1 H2]. apply ty_eqb_eq in H2. subst. cbn. f_equal.
    eapply shapes_eqb; eauto.
  - apply andb_true_iff in Hy as [H1 H2]. apply ty_eqb_eq in H2. subst. cbn. f_equal.
    eapply shapes_eqb; eauto.
  - cbn. f_equal. auto.
  - apply andb_true_iff in Hy as [H1 H2]. apply Nat.eqb_eq in H1. apply ty_eqb_eq in H2. subst. reflexivity.
Qed.

Lemma shape_size x : tsize (shape x) = tsize x.
Proof.
  induction x using texpr_ind'; cbn; try reflexivity; [| |congruence];
    rewrite map_map; do 2 f_equal; apply map_ext_in; intros y Hy; rewrite Forall_forall in H; auto.
Qed.
Lemma shape_type x : get_type (shape x) = get_type x.
Proof. induction x using texpr_ind'; cbn; auto. Qed.
Lemma shape_gram x : gram_of_t (shape x) = gram_of_t x.
Proof.
  induction x using texpr_ind'; cbn; try reflexivity; [| |congruence];
    rewrite map_map; f_equal; apply map_ext_in; intros y Hy; rewrite Forall_forall in H; auto.
Qed.
Lemma texpr_eqb_size x y : texpr_eqb x y = true -> tsize x = tsize y.
Proof. intros H. rewrite <- (shape_size x), <- (shape_size y). f_equal. apply texpr_eqb_shape. exact H. Qed.
Lemma texpr_eqb_type x y : texpr_eqb x y = true -> get_type x = get_type y.
Proof. intros H. rewrite <- (shape_type x), <- (shape_type y). f_equal. apply texpr_eqb_shape. exact H. Qed.
Lemma texpr_eqb_gram x y : texpr_eqb x y = true -> gram_of_t x = gram_of_t y.
Proof. intros H. rewrite <- (shape_gram x), <- (shape_gram y). f_equal. apply texpr_eqb_shape. exact H. Qed.

(** ** Symmetry *)
Lemma rstr_eqb_sym a b : rstr_eqb a b = rstr_eqb b a.
Proof.
  destruct (rstr_eqb a b) eqn:E.
  - apply rstr_eqb_eq in E. subst. symmetry. apply rstr_eqb_refl.
  - destruct (rstr_eqb b a) eqn:E'; [|reflexivity]. apply rstr_eqb_eq in E'. subst. rewrite rstr_eqb_refl in E. discriminate.
Qed.
Lemma ty_eqb_sym a b : ty_eqb a b = ty_eqb b a.
Proof.
  unfold ty_eqb, cset_eqb. rewrite (rstr_eqb_sym (first_set a)), (rstr_eqb_sym (flast_set a)).
  f_equal. f_equal. destruct (nullable a), (nullable b); reflexivity.
Qed.
Lemma name_eqb_sym a b : name_eqb a b = name_eqb b a.
Proof.
  unfold name_eqb. f_equal.
  - destruct (n_content a) as [[? ?]|], (n_content b) as [[? ?]|]; cbn; try reflexivity.
    + unfold ident_eqb; cbn. f_equal; [destruct id_raw, id_raw0; reflexivity|apply rstr_eqb_sym].
    + apply rstr_eqb_sym.
  - destruct (n_kind a), (n_kind b); reflexivity.
Qed.
Lemma oname_eqb_sym a b : oname_eqb a b = oname_eqb b a.
Proof. destruct a, b; cbn; try reflexivity. apply name_eqb_sym. Qed.
Lemma texprs_eqb_sym l : Forall (fun x => forall y, texpr_eqb x y = texpr_eqb y x) l ->
  forall l', texprs_eqb l l' = texprs_eqb l' l.
Proof.
  induction 1 as [|x l Hx Hl IH]; intros [|y l']; cbn; try reflexivity. f_equal; auto.
Qed.
Lemma texpr_eqb_sym x : forall y, texpr_eqb x y = texpr_eqb y x.
Proof.
  induction x using texpr_ind'; intros y; destruct y; cbn -[oname_eqb t_name ty_eqb rstr_eqb Nat.eqb];
    rewrite (oname_eqb_sym (t_name _)); f_equal; try reflexivity.
  - apply ty_eqb_sym.
  - f_equal; [apply rstr_eqb_sym|apply ty_eqb_sym].
  - f_equal; [apply (texprs_eqb_sym l H)|apply ty_eqb_sym].
  - f_equal; [apply (texprs_eqb_sym l H)|apply ty_eqb_sym].
  - auto.
  - f_equal; [apply Nat.eqb_sym|apply ty_eqb_sym].
Qed.
