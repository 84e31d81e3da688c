(** * GenFacts: the table built by the code generator. *)
From Verif Require Export TableFacts WtFacts.
From Coq Require Import String.
From Coq Require Import List.

(** ** Reachability through dependencies *)
Inductive reach (d : list entry) : nat -> nat -> Prop :=
| reach_refl i : reach d i i
| reach_step i j k en : nth_error d i = Some en -> In j (en_deps en) -> reach d j k -> reach d i k.

Lemma reach_trans d i j k : reach d i j -> reach d j k -> reach d i k.
Proof. induction 1; eauto using reach_step. Qed.
Lemma reach_app d l i j : reach d i j -> reach (d ++ l) i j.
Proof.
  induction 1 as [i|i j k en He Hj _ IH]; [constructor|]. eapply reach_step; eauto.
  rewrite nth_error_app1; [exact He|]. apply nth_error_Some. congruence.
Qed.

Lemma nset_insert_In n s x : In x (nset_insert n s) <-> x = n \/ In x s.
Proof.
  induction s as [|m s IH]; cbn; [intuition|].
  destruct (Nat.compare_spec n m) as [->|H|H]; cbn; [intuition|intuition|]. rewrite IH. intuition.
Qed.
Lemma nset_extend_In l : forall s x, In x (nset_extend s l) <-> In x s \/ In x l.
Proof.
  induction l as [|n l IH]; intros s x; cbn; [intuition|]. unfold nset_extend in IH |- *. cbn. rewrite IH, nset_insert_In. intuition.
Qed.

(** ** Data about the entries: type and size *)
Definition info := list (ty * nat).
Definition tau (m : info) (i : nat) : ty := match nth_error m i with Some (t, _) => t | None => ty_default end.
Definition sz (m : info) (i : nat) : nat := match nth_error m i with Some (_, n) => n | None => 0 end.

Lemma tau_app m l i : i < length m -> tau (m ++ l) i = tau m i.
Proof. intros H. unfold tau. rewrite nth_error_app1 by exact H. reflexivity. Qed.
Lemma sz_app m l i : i < length m -> sz (m ++ l) i = sz m i.
Proof. intros H. unfold sz. rewrite nth_error_app1 by exact H. reflexivity. Qed.
Lemma tau_new m t n : tau (m ++ [(t, n)]) (length m) = t.
Proof. unfold tau. rewrite nth_error_app2 by lia. rewrite Nat.sub_diag. reflexivity. Qed.
Lemma sz_new m t n : sz (m ++ [(t, n)]) (length m) = n.
Proof. unfold sz. rewrite nth_error_app2 by lia. rewrite Nat.sub_diag. reflexivity. Qed.
Lemma def_app d l i : i < length d -> def_of (d ++ l) i = def_of d i.
Proof. intros H. unfold def_of. rewrite nth_error_app1 by exact H. reflexivity. Qed.
Lemma def_new d en : def_of (d ++ [en]) (length d) = Some (en_def en).
Proof. unfold def_of. rewrite nth_error_app2 by lia. rewrite Nat.sub_diag. reflexivity. Qed.
Lemma def_of_lt d id x : def_of d id = Some x -> id < length d.
Proof. unfold def_of. intros H. apply nth_error_Some. destruct (nth_error d id); discriminate. Qed.
Lemma has_char_app d l i : i < length d -> has_char (d ++ l) i = has_char d i.
Proof. intros H. unfold has_char. rewrite def_app by exact H. reflexivity. Qed.

Lemma map_tau_app m l ids : Forall (fun i => i < length m) ids -> map (tau (m ++ l)) ids = map (tau m) ids.
Proof. induction 1; cbn; [reflexivity|]. rewrite tau_app by assumption. congruence. Qed.
Lemma map_sz_app m l ids : Forall (fun i => i < length m) ids -> map (sz (m ++ l)) ids = map (sz m) ids.
Proof. induction 1; cbn; [reflexivity|]. rewrite sz_app by assumption. congruence. Qed.

(** ** What is true of a finished entry *)
Definition size_ok (d : table) (m : info) (id : nat) : Prop :=
  match def_of d id with
  | Some (DCat _ _ ids) | Some (DAlt _ ids _ _ _ _) => sz m id = S (list_sum (map (sz m) ids))
  | Some (DFix (Some j)) => sz m id = S (sz m j)
  | _ => sz m id = 1
  end.
Definition char_ok (d : table) (id : nat) : Prop :=
  match def_of d id with
  | Some (DLit s c) => c = match s with [x] => Some x | _ => None end
  | Some (DAlt _ ids _ _ _ c) => c = forallb (has_char d) ids
  | _ => True
  end.
Definition deps_ok (d : table) (id : nat) : Prop :=
  match nth_error d id with
  | Some en => forall j, In j (en_deps en) <-> In j (contains d id)
  | None => False
  end.
Definition good (d : table) (m : info) (id : nat) : Prop :=
  flat_ok d (tau m) id /\ size_ok d m id /\ char_ok d id /\ deps_ok d id.

Lemma seq_ok_ext f g t xs t' : (forall x, In x xs -> f x = g x) -> seq_ok f t xs t' -> seq_ok g t xs t'.
Proof.
  intros H Hs. revert H. induction Hs as [t|t x xs t' Hd Hs IH]; intros H; constructor.
  - rewrite <- (H x) by (left; reflexivity). exact Hd.
  - rewrite <- (H x) by (left; reflexivity). apply IH. intros y Hy. apply H. right. exact Hy.
Qed.
Lemma alt_ok_ext f g t xs t' : (forall x, In x xs -> f x = g x) -> alt_ok f t xs t' -> alt_ok g t xs t'.
Proof.
  intros H Hs. revert H. induction Hs as [t|t x xs t' Hn Hd Hs IH]; intros H; constructor.
  - rewrite <- (H x) by (left; reflexivity). exact Hn.
  - rewrite <- (H x) by (left; reflexivity). exact Hd.
  - rewrite <- (H x) by (left; reflexivity). apply IH. intros y Hy. apply H. right. exact Hy.
Qed.
Lemma seq_ok_fun f t xs t1 : seq_ok f t xs t1 -> forall t2, seq_ok f t xs t2 -> t1 = t2.
Proof. induction 1; intros t2 H2; inversion H2; subst; auto. Qed.
Lemma alt_ok_fun f t xs t1 : alt_ok f t xs t1 -> forall t2, alt_ok f t xs t2 -> t1 = t2.
Proof. induction 1; intros t2 H2; inversion H2; subst; auto. Qed.

Lemma flat_ok_ext d d' m m' id :
  def_of d' id = def_of d id -> length d <= length d' -> (forall i, i < length d -> tau m' i = tau m i) -> id < length d ->
  flat_ok d (tau m) id -> flat_ok d' (tau m') id.
Proof.
  intros Hd Hl Ht Hid. unfold flat_ok. rewrite Hd. rewrite (Ht id Hid).
  destruct (def_of d id) as [[|s c|nm p ids|p ids fs nl al c|[j|]|f]|]; auto.
  - intros [H1 H2]. assert (Hlt : forall x, In x ids -> x < length d) by (apply Forall_forall; exact H2).
    split; [|eapply Forall_impl; [|exact H2]; cbn; lia].
    destruct ids as [|x xs]; [exact H1|]. rewrite (Ht x) by (apply Hlt; left; reflexivity).
    split; [apply H1|]. eapply seq_ok_ext; [|apply H1]. intros y Hy. symmetry. apply Ht, Hlt. right. exact Hy.
  - intros (H1 & H2 & H3 & H4 & H5). assert (Hlt : forall x, In x ids -> x < length d) by (apply Forall_forall; exact H2).
    assert (Hm : map (tau m') ids = map (tau m) ids) by (apply map_ext_in; auto).
    split; [|split; [eapply Forall_impl; [|exact H2]; cbn; lia|rewrite Hm; split; [exact H3|split; [exact H4|]]]].
    + destruct ids as [|x xs]; [exact H1|]. rewrite (Ht x) by (apply Hlt; left; reflexivity).
      eapply alt_ok_ext; [|apply H1]. intros y Hy. symmetry. apply Ht, Hlt. right. exact Hy.
    + rewrite H5. clear - Ht Hlt. induction ids as [|x ids IH]; cbn; [reflexivity|].
      rewrite IH by (intros; apply Hlt; right; assumption). rewrite (Ht x) by (apply Hlt; left; reflexivity). reflexivity.
  - intros [H1 H2]. rewrite (Ht j) by exact H2. split; [exact H1|lia].
  - intros [H1 H2]. rewrite (Ht f) by exact H2. split; [exact H1|lia].
Qed.

Lemma flat_ok_ids d f id : flat_ok d f id -> Forall (fun j => j < length d) (mentions d id).
Proof.
  unfold flat_ok, mentions. intros H.
  destruct (def_of d id) as [[|s c|nm p ids|p ids fs nl al c|[j|]|f']|]; try contradiction.
  - constructor.
  - constructor.
  - apply H.
  - apply H.
  - constructor; [apply H|constructor].
  - constructor; [apply H|constructor].
Qed.

Lemma good_ext d d' m m' id :
  nth_error d' id = nth_error d id -> length d <= length d' ->
  (forall i, i < length d -> tau m' i = tau m i /\ sz m' i = sz m i /\ has_char d' i = has_char d i) -> id < length d ->
  good d m id -> good d' m' id.
Proof.
  intros Hn Hl Hm Hid (H1 & H2 & H3 & H4).
  assert (Hd : def_of d' id = def_of d id) by (unfold def_of; rewrite Hn; reflexivity).
  pose proof (flat_ok_ids _ _ _ H1) as Hids. unfold mentions in Hids.
  split; [|split; [|split]].
  - apply (flat_ok_ext d d' m m' id Hd Hl); [intros i Hi; apply Hm; exact Hi|exact Hid|exact H1].
  - unfold size_ok in *. rewrite Hd. destruct (Hm id Hid) as (_ & -> & _).
    destruct (def_of d id) as [[|s c|nm p ids|p ids fs nl al c|[j|]|f']|]; auto.
    + rewrite H2. do 2 f_equal. apply map_ext_in. intros x Hx. symmetry. apply Hm. rewrite Forall_forall in Hids. auto.
    + rewrite H2. do 2 f_equal. apply map_ext_in. intros x Hx. symmetry. apply Hm. rewrite Forall_forall in Hids. auto.
    + rewrite H2. f_equal. symmetry. apply Hm. inversion Hids; assumption.
  - unfold char_ok in *. rewrite Hd.
    destruct (def_of d id) as [[|s c|nm p ids|p ids fs nl al c|[j|]|f']|]; auto.
    rewrite H3. clear - Hids Hm. induction Hids as [|x ids Hx Hids IH]; cbn; [reflexivity|].
    rewrite IH. destruct (Hm x Hx) as (_ & _ & ->). reflexivity.
  - unfold deps_ok in *. rewrite Hn. unfold contains, mentions in *. rewrite Hd. exact H4.
Qed.

(** ** The invariant of the generator *)
Record inv (b : bst) (m : info) : Prop := Inv {
  i_len : length m = length (data b);
  i_ctx : forall f, In f (context b) -> def_of (data b) f = Some (DFix None);
  i_nodup : NoDup (context b);
  i_ok : forall id, id < length (data b) -> In id (context b) \/ good (data b) m id;
  i_eps : eps_id b = None;
  i_lit : forall s id, In (s, id) (lit_map b) -> exists c, def_of (data b) id = Some (DLit s c);
  i_cat : forall ids id, In (ids, id) (cat_map b) -> exists n p, def_of (data b) id = Some (DCat n p ids);
  i_alt : forall ids id, In (ids, id) (alt_map b) -> exists p f n a c, def_of (data b) id = Some (DAlt p ids f n a c);
  i_var : forall f id, In (f, id) (var_map b) -> def_of (data b) id = Some (DBox f);
  i_fix : forall i id, In (i, id) (fix_map b) ->
            tau m id = get_type i /\ sz m id = S (tsize i) /\ exists o, def_of (data b) id = Some (DFix o);
  i_char : forall id, nset_mem id (can_char b) = has_char (data b) id }.

Lemma inv_default : inv bst_default [].
Proof.
  split; cbn; try reflexivity; try contradiction; try lia.
  - constructor.
  - intros id. unfold has_char, def_of. destruct id; reflexivity.
Qed.

Lemma map_get_In {K V} (eqb : K -> K -> bool) k (m : list (K * V)) v :
  map_get eqb k m = Some v -> exists k', In (k', v) m /\ eqb k k' = true.
Proof.
  induction m as [|[k' v'] m IH]; cbn; [discriminate|].
  destruct (eqb k k') eqn:E; [intros H; injection H as ->; exists k'; auto|].
  intros H. destruct (IH H) as (k0 & ? & ?). exists k0. auto.
Qed.
Lemma map_get_None {K V} (eqb : K -> K -> bool) k (m : list (K * V)) :
  map_get eqb k m = None -> forall k' v, In (k', v) m -> eqb k k' = false.
Proof.
  induction m as [|[k' v'] m IH]; cbn; [contradiction|].
  destruct (eqb k k') eqn:E; [discriminate|]. intros H k0 v [H0|H0]; [injection H0 as -> ->; exact E|eauto].
Qed.
Lemma nats_eqb_eq a b : nats_eqb a b = true <-> a = b.
Proof.
  revert b; induction a as [|x a IH]; intros [|y b]; cbn; try (split; [discriminate|discriminate]); [split; reflexivity|].
  rewrite andb_true_iff, Nat.eqb_eq, IH. split; [intros [-> ->]; reflexivity|intros H; injection H; auto].
Qed.

(** Pushing an entry and remembering it. *)
Lemma inv_push b m en t n cc lm cm am vm fm nm :
  inv b m ->
  let d' := data b ++ [en] in let m' := m ++ [(t, n)] in let id := length (data b) in
  good d' m' id ->
  (forall x, nset_mem x cc = if Nat.eqb x id then has_char d' id else nset_mem x (can_char b)) ->
  (forall s i, In (s, i) lm -> In (s, i) (lit_map b) \/ i = id /\ exists c, en_def en = DLit s c) ->
  (forall s i, In (s, i) cm -> In (s, i) (cat_map b) \/ i = id /\ exists x p, en_def en = DCat x p s) ->
  (forall s i, In (s, i) am -> In (s, i) (alt_map b) \/ i = id /\ exists p f x a c, en_def en = DAlt p s f x a c) ->
  (forall f i, In (f, i) vm -> In (f, i) (var_map b) \/ i = id /\ en_def en = DBox f) ->
  (forall s i, In (s, i) fm -> In (s, i) (fix_map b)) ->
  inv (Bst d' None lm cm am fm vm nm cc (context b)) m'.
Proof.
  intros I d' m' id Hgood Hcc Hlm Hcm Ham Hvm Hfm.
  assert (Hlen : length m = length (data b)) by apply I.
  assert (Hd : forall i x, def_of (data b) i = Some x -> def_of d' i = Some x).
  { intros i x Hx. unfold d'. rewrite def_app; [exact Hx|]. eapply def_of_lt; eauto. }
  assert (Hnew : def_of d' id = Some (en_def en)) by apply def_new.
  split; cbn [data context eps_id lit_map cat_map alt_map fix_map var_map can_char].
  - unfold d', m'. rewrite !app_length. cbn. lia.
  - intros f Hf. apply Hd. apply I. exact Hf.
  - apply I.
  - intros i Hi. unfold d' in Hi. rewrite app_length in Hi. cbn in Hi.
    destruct (Nat.eq_dec i id) as [->|Hne]; [right; exact Hgood|].
    assert (Hlt : i < length (data b)) by (unfold id in Hne; lia).
    destruct (i_ok _ _ I i Hlt) as [Hc|Hg]; [left; exact Hc|right].
    eapply good_ext; [| | | |exact Hg]; auto.
    + unfold d'. rewrite nth_error_app1 by exact Hlt. reflexivity.
    + unfold d'. rewrite app_length. lia.
    + intros j Hj. unfold m'. rewrite tau_app, sz_app by lia. unfold d'. rewrite has_char_app by exact Hj. auto.
  - reflexivity.
  - intros s i Hs. destruct (Hlm s i Hs) as [H|[-> [c H]]].
    + destruct (i_lit _ _ I _ _ H) as [c Hc]. exists c. auto.
    + exists c. rewrite Hnew, H. reflexivity.
  - intros s i Hs. destruct (Hcm s i Hs) as [H|(-> & x & p & H)].
    + destruct (i_cat _ _ I _ _ H) as (x & p & Hc). eauto.
    + exists x, p. rewrite Hnew, H. reflexivity.
  - intros s i Hs. destruct (Ham s i Hs) as [H|(-> & p & f & x & a & c & H)].
    + destruct (i_alt _ _ I _ _ H) as (p & f & x & a & c & Hc). exists p, f, x, a, c. auto.
    + exists p, f, x, a, c. rewrite Hnew, H. reflexivity.
  - intros f i Hs. destruct (Hvm f i Hs) as [H|[-> H]].
    + apply Hd. apply I. exact H.
    + rewrite Hnew, H. reflexivity.
  - intros s i Hs. apply Hfm in Hs. destruct (i_fix _ _ I _ _ Hs) as (H1 & H2 & o & H3).
    assert (i < length m) by (rewrite Hlen; eapply def_of_lt; eauto).
    unfold m'. rewrite tau_app, sz_app by assumption. split; [exact H1|]. split; [exact H2|]. exists o. auto.
  - intros x. rewrite Hcc. destruct (Nat.eqb_spec x id) as [->|Hne]; [reflexivity|].
    rewrite (i_char _ _ I). destruct (Nat.lt_ge_cases x (length (data b))) as [Hlt|Hge].
    + unfold d'. rewrite has_char_app by exact Hlt. reflexivity.
    + unfold has_char, def_of. unfold d'.
      rewrite (proj2 (nth_error_None (data b) x)) by exact Hge.
      rewrite (proj2 (nth_error_None (data b ++ [en]) x)); [reflexivity|]. rewrite app_length. cbn. unfold id in Hne. lia.
Qed.

Lemma nset_mem_In x s : nset_mem x s = true <-> In x s.
Proof.
  unfold nset_mem. rewrite existsb_exists. split.
  - intros (y & Hy & E). apply Nat.eqb_eq in E. subst. exact Hy.
  - intros H. exists x. split; [exact H|apply Nat.eqb_refl].
Qed.
Lemma nset_mem_insert x n s : nset_mem x (nset_insert n s) = if Nat.eqb x n then true else nset_mem x s.
Proof.
  destruct (nset_mem x (nset_insert n s)) eqn:E.
  - apply nset_mem_In, nset_insert_In in E. destruct (Nat.eqb_spec x n) as [->|Hne]; [reflexivity|].
    destruct E as [E|E]; [contradiction|]. symmetry. apply nset_mem_In. exact E.
  - destruct (Nat.eqb_spec x n) as [->|Hne].
    + exfalso. assert (H : nset_mem n (nset_insert n s) = true) by (apply nset_mem_In, nset_insert_In; auto). congruence.
    + destruct (nset_mem x s) eqn:E'; [|reflexivity]. exfalso.
      assert (H : nset_mem x (nset_insert n s) = true) by (apply nset_mem_In, nset_insert_In; apply nset_mem_In in E'; auto). congruence.
Qed.

(** Names that can be converted. *)
Definition convertible (cs : casing) (n : name) : Prop :=
  camel cs (name_text n) <> None /\ snake cs (name_text n) <> None.
Definition names_ok (cs : casing) (e : texpr) : Prop := Forall (convertible cs) (t_names e).
Definition oname_ok (cs : casing) (o : option name) : Prop := match o with Some n => convertible cs n | None => True end.

Lemma names_ok_name cs e : names_ok cs e -> oname_ok cs (t_name e).
Proof.
  unfold names_ok. destruct e; cbn; unfold t_name; cbn; destruct (a_name a); cbn; auto; intros H; inversion H; assumption.
Qed.
Lemma names_ok_list cs l : Forall (convertible cs) (flat_map t_names l) -> Forall (names_ok cs) l.
Proof.
  induction l as [|e l IH]; cbn; intros H; constructor.
  - unfold names_ok. apply Forall_app in H. apply H.
  - apply IH. apply Forall_app in H. apply H.
Qed.

Section GenSpec.
  Variable cs : casing.

  Lemma new_type_name_ok prefix o b : oname_ok cs o ->
    exists ident nm, new_type_name cs prefix o b = Some (length (data b), ident, set_name_map nm b).
  Proof.
    unfold new_type_name. destruct o as [n|]; cbn; intros H.
    - destruct H as [H _]. destruct (camel cs (name_text n)) as [c|]; [|congruence].
      destruct (bump c (name_map b)) as [k m]. eauto.
    - eexists; exists (name_map b). destruct b; reflexivity.
  Qed.
  Lemma name_parts_ok conv pre l : Forall (fun o => match o with Some n => conv (name_text n) <> None | None => True end) l ->
    forall k m, exists parts, name_parts conv pre k m l = Some parts.
  Proof.
    induction 1 as [|o l Ho Hl IH]; intros k m; cbn; [eauto|].
    destruct o as [n|].
    - destruct (conv (name_text n)) as [c|]; [|congruence]. destruct (bump c m) as [q m'].
      destruct (IH (S k) m') as [p ->]. cbn. eauto.
    - destruct (IH (S k) m) as [p ->]. cbn. eauto.
  Qed.

  Definition news (b b' : bst) (ids : list nat) : Prop :=
    forall x, length (data b) <= x < length (data b') -> exists i, In i ids /\ reach (data b') i x.
  Record gres (b b' : bst) (m m' : info) (ids : list nat) (ts : list ty) (ns : list nat) : Prop := Gres {
    g_inv : inv b' m';
    g_data : exists l, data b' = data b ++ l;
    g_info : exists l, m' = m ++ l;
    g_lt : Forall (fun i => i < length (data b')) ids;
    g_tau : map (tau m') ids = ts;
    g_sz : map (sz m') ids = ns;
    g_ctx : context b' = context b;
    g_new : news b b' ids }.

  (** A found entry. *)
  Lemma gres_hit b0 b m0 m ids ts ns id t n : gres b0 b m0 m ids ts ns -> id < length (data b) ->
    tau m id = t -> sz m id = n -> (forall i, In i ids -> reach (data b) id i) -> gres b0 b m0 m [id] [t] [n].
  Proof.
    intros H Hlt Ht Hn Hr. destruct H as [H1 H2 H3 H4 H5 H6 H7 H8]. split; auto.
    - cbn. congruence.
    - cbn. congruence.
    - intros x Hx. destruct (H8 x Hx) as (i & Hi & Hix). exists id. split; [left; reflexivity|].
      eapply reach_trans; eauto.
  Qed.
  (** A new entry. *)
  Lemma gres_push b0 b m0 m ids ts ns b' en t n : gres b0 b m0 m ids ts ns ->
    inv b' (m ++ [(t, n)]) -> data b' = data b ++ [en] -> context b' = context b ->
    (forall i, In i ids -> In i (en_deps en)) ->
    gres b0 b' m0 (m ++ [(t, n)]) [length (data b)] [t] [n].
  Proof.
    intros H I Hd Hc Hdeps. destruct H as [H1 [l2 H2] [l3 H3] H4 H5 H6 H7 H8]. 
    assert (Hl : length m = length (data b)) by apply H1. split; auto.
    - exists (l2 ++ [en]). rewrite Hd, H2, app_assoc. reflexivity.
    - exists (l3 ++ [(t, n)]). rewrite H3, app_assoc. reflexivity.
    - constructor; [rewrite Hd, app_length; cbn; lia|constructor].
    - cbn. rewrite <- Hl, tau_new. reflexivity.
    - cbn. rewrite <- Hl, sz_new. reflexivity.
    - rewrite Hc. exact H7.
    - intros x Hx. exists (length (data b)). split; [left; reflexivity|]. rewrite Hd, app_length in Hx. cbn in Hx.
      destruct (Nat.eq_dec x (length (data b))) as [->|Hne]; [constructor|].
      destruct (H8 x) as (i & Hi & Hix); [lia|]. rewrite Hd. eapply reach_step; [| |apply reach_app; exact Hix].
      + rewrite nth_error_app2 by lia. rewrite Nat.sub_diag. reflexivity.
      + apply Hdeps. exact Hi.
  Qed.

  Lemma gres_refl b m : inv b m -> gres b b m m [] [] [].
  Proof.
    intros I. split; auto.
    - exists []. symmetry. apply app_nil_r.
    - exists []. symmetry. apply app_nil_r.
    - intros x Hx. lia.
  Qed.

  Lemma can_char_fresh b m : inv b m -> nset_mem (length (data b)) (can_char b) = false.
  Proof.
    intros I. rewrite (i_char _ _ I). unfold has_char, def_of. rewrite (proj2 (nth_error_None _ _)) by lia. reflexivity.
  Qed.

  Lemma gen_epsilon_spec b m : inv b m ->
    exists b' id m', gen_epsilon b = Some (b', id) /\ gres b b' m m' [id] [ty_eps] [1].
  Proof.
    intros I. unfold gen_epsilon. rewrite (i_eps _ _ I). eexists _, _, (m ++ [(ty_eps, 1)]). split; [reflexivity|].
    set (en := Entry TnEpsilon DEps []). assert (Hdef := def_new (data b) en).
    assert (Hl : length m = length (data b)) by apply I.
    eapply gres_push with (en := en); [apply gres_refl; exact I| |reflexivity|reflexivity|contradiction].
    unfold push_entry, set_data; cbn [data eps_id lit_map cat_map alt_map fix_map var_map name_map can_char context].
    rewrite (i_eps _ _ I). apply inv_push; auto.
    - split; [|split; [|split]].
      + unfold flat_ok. rewrite Hdef. cbn. rewrite <- Hl. apply tau_new.
      + unfold size_ok. rewrite Hdef. cbn. rewrite <- Hl. apply sz_new.
      + unfold char_ok. rewrite Hdef. exact Logic.I.
      + unfold deps_ok, contains, mentions. rewrite Hdef. rewrite nth_error_app2 by lia. rewrite Nat.sub_diag. intros j; reflexivity.
    - intros y. destruct (Nat.eqb_spec y (length (data b))) as [->|]; [|reflexivity].
      rewrite (can_char_fresh b m I). unfold has_char. rewrite Hdef. reflexivity.
  Qed.

  Lemma gen_literal_spec o s b m : inv b m -> oname_ok cs o ->
    exists b' id m', gen_literal cs o s b = Some (b', id) /\ gres b b' m m' [id] [ty_of_str s] [1].
  Proof.
    intros I Ho. unfold gen_literal.
    destruct (map_get rstr_eqb s (lit_map b)) as [id|] eqn:Eg.
    - exists b, id, m. split; [reflexivity|]. apply map_get_In in Eg as (s' & Hin & E). apply rstr_eqb_eq in E. subst s'.
      destruct (i_lit _ _ I _ _ Hin) as [c Hd]. assert (Hlt := def_of_lt _ _ _ Hd).
      destruct (i_ok _ _ I id Hlt) as [Hc|(H1 & H2 & _)]; [apply (i_ctx _ _ I) in Hc; congruence|].
      unfold flat_ok in H1. unfold size_ok in H2. rewrite Hd in H1, H2.
      eapply gres_hit; [apply gres_refl; exact I|exact Hlt|exact H1|exact H2|contradiction].
    - destruct (new_type_name_ok (lit "Lit") o b Ho) as (ident & nm & ->).
      set (conv := match s with [x] => Some x | _ => None end).
      set (en := Entry (TnIdent ident) (DLit s conv) []).
      assert (Hgen : exists cc, match (match s with
          | [c] => (Some c, set_can_char (nset_insert (length (data b)) (can_char (set_name_map nm b))) (set_name_map nm b))
          | _ => (None, set_name_map nm b) end) with (conv, b2) =>
            Some (push_entry (Entry (TnIdent ident) (DLit s conv) []) (set_lit_map ((s, length (data b)) :: lit_map b2) b2), length (data b))
          end = Some (Bst (data b ++ [en]) None ((s, length (data b)) :: lit_map b) (cat_map b) (alt_map b) (fix_map b) (var_map b) nm cc (context b), length (data b))
          /\ forall x, nset_mem x cc = if Nat.eqb x (length (data b)) then has_char (data b ++ [en]) (length (data b)) else nset_mem x (can_char b)).
      { assert (Hh : has_char (data b ++ [en]) (length (data b)) = match conv with Some _ => true | None => false end).
        { unfold has_char. rewrite def_new. cbn. destruct conv; reflexivity. }
        pose proof (can_char_fresh b m I) as Hf. pose proof (i_eps _ _ I) as He.
        destruct s as [|c [|c' s]].
        - exists (can_char b). split; [destruct b; cbn in *; subst; reflexivity|]. intros x. rewrite Hh. cbn.
          destruct (Nat.eqb_spec x (length (data b))) as [->|]; [exact Hf|reflexivity].
        - exists (nset_insert (length (data b)) (can_char b)). split; [destruct b; cbn in *; subst; reflexivity|].
          intros x. rewrite Hh. apply nset_mem_insert.
        - exists (can_char b). split; [destruct b; cbn in *; subst; reflexivity|]. intros x. rewrite Hh. cbn.
          destruct (Nat.eqb_spec x (length (data b))) as [->|]; [exact Hf|reflexivity]. }
      destruct Hgen as (cc & -> & Hcc).
      assert (Hl : length m = length (data b)) by apply I.
      assert (Hdef := def_new (data b) en).
      eexists _, _, (m ++ [(ty_of_str s, 1)]). split; [reflexivity|].
      eapply gres_push; [apply gres_refl; exact I| |reflexivity|reflexivity|contradiction].
      apply inv_push; auto.
      + split; [|split; [|split]].
        * unfold flat_ok. rewrite Hdef. cbn. rewrite <- Hl. apply tau_new.
        * unfold size_ok. rewrite Hdef. cbn. rewrite <- Hl. apply sz_new.
        * unfold char_ok. rewrite Hdef. reflexivity.
        * unfold deps_ok, contains, mentions. rewrite Hdef. rewrite nth_error_app2 by lia. rewrite Nat.sub_diag. intros j; reflexivity.
      + intros s' i [E|Hin]; [|auto]. injection E as <- <-. right. split; [reflexivity|]. exists conv. reflexivity.
  Qed.

  Lemma ids_ok_true b ids : Forall (fun i => i < length (data b)) ids -> ids_ok b ids = true.
  Proof.
    intros H. apply forallb_forall. intros x Hx. rewrite Forall_forall in H. apply Nat.ltb_lt. auto.
  Qed.

  Lemma gen_cat_spec o names b0 b m0 m ids ts ns x xs t : gres b0 b m0 m ids ts ns -> oname_ok cs o ->
    Forall (oname_ok cs) names -> ids = x :: xs -> nullable (tau m x) = false -> seq_ok (tau m) (tau m x) xs t ->
    exists b' id m', gen_cat cs o names ids b = Some (b', id) /\ gres b0 b' m0 m' [id] [t] [S (list_sum ns)].
  Proof.
    intros G Ho Hnames Eids Hnull Hseq. assert (I : inv b m) by apply G. assert (Hl : length m = length (data b)) by apply I.
    assert (Hlt := g_lt _ _ _ _ _ _ _ G). unfold gen_cat.
    destruct (map_get nats_eqb ids (cat_map b)) as [id|] eqn:Eg.
    - exists b, id, m. split; [reflexivity|]. apply map_get_In in Eg as (s' & Hin & E). apply nats_eqb_eq in E. subst s'.
      destruct (i_cat _ _ I _ _ Hin) as (n & p & Hd). assert (Hlti := def_of_lt _ _ _ Hd).
      destruct (i_ok _ _ I id Hlti) as [Hc|(H1 & H2 & _ & H4)]; [apply (i_ctx _ _ I) in Hc; congruence|].
      unfold flat_ok in H1. unfold size_ok in H2. unfold deps_ok in H4. rewrite Hd in H1, H2.
      destruct (nth_error (data b) id) as [en|] eqn:Ee; [|contradiction].
      eapply gres_hit; [exact G|exact Hlti| | |].
      + rewrite Eids in H1. eapply seq_ok_fun; [|exact Hseq]. apply H1.
      + rewrite H2, (g_sz _ _ _ _ _ _ _ G). reflexivity.
      + intros i Hi. eapply reach_step; [exact Ee| |constructor]. apply H4. unfold contains, mentions. rewrite Hd. exact Hi.
    - destruct (new_type_name_ok (lit "Cat") o b Ho) as (ident & nm & ->).
      rewrite ids_ok_true by exact Hlt.
      destruct (name_parts_ok (snake cs) (lit "part") names) with (k := 0) (m := @nil (rstr * nat)) as [parts Hparts].
      { eapply Forall_impl; [|exact Hnames]. intros [n|]; [|auto]. intros H. apply H. }
      rewrite Hparts. clear Hparts.
      set (named := existsb _ names). set (en := Entry (TnIdent ident) (DCat named parts ids) (nset_extend [] ids)).
      assert (Hdef := def_new (data b) en).
      assert (Hm : map (tau (m ++ [(t, S (list_sum ns))])) ids = map (tau m) ids) by (apply map_tau_app; rewrite Hl; exact Hlt).
      assert (Hz : map (sz (m ++ [(t, S (list_sum ns))])) ids = map (sz m) ids) by (apply map_sz_app; rewrite Hl; exact Hlt).
      eexists _, _, (m ++ [(t, S (list_sum ns))]). split; [reflexivity|].
      eapply gres_push with (en := en); [exact G| |reflexivity|reflexivity|].
      + unfold push_entry, set_data, set_cat_map, set_name_map; cbn [data eps_id lit_map cat_map alt_map fix_map var_map name_map can_char context].
        rewrite (i_eps _ _ I). apply inv_push; auto.
        * split; [|split; [|split]].
          -- unfold flat_ok. rewrite Hdef. cbn [en_def en]. rewrite <- Hl, tau_new. split.
             ++ rewrite Eids in Hm, Hlt |- *. cbn in Hm. injection Hm as E1 E2. rewrite E1. split; [exact Hnull|].
                eapply seq_ok_ext; [|exact Hseq]. intros y Hy. inversion Hlt as [|? ? _ Hl2]. subst.
                rewrite Forall_forall in Hl2. symmetry. apply tau_app. rewrite Hl. auto.
             ++ eapply Forall_impl; [|exact Hlt]. cbn. intros a Ha. rewrite app_length. lia.
          -- unfold size_ok. rewrite Hdef. cbn [en_def en]. rewrite <- Hl, sz_new, Hz, (g_sz _ _ _ _ _ _ _ G). reflexivity.
          -- unfold char_ok. rewrite Hdef. exact Logic.I.
          -- unfold deps_ok, contains, mentions. rewrite Hdef. rewrite nth_error_app2 by lia. rewrite Nat.sub_diag. cbn.
             intros j. rewrite nset_extend_In. cbn. tauto.
        * intros y. destruct (Nat.eqb_spec y (length (data b))) as [->|]; [|reflexivity].
          rewrite (can_char_fresh b m I). unfold has_char. rewrite Hdef. reflexivity.
        * intros s' i [E|Hin]; [|auto]. injection E as <- <-. right. split; [reflexivity|]. exists named, parts. reflexivity.
      + intros i Hi. cbn. apply nset_extend_In. auto.
  Qed.

  Lemma gen_alt_spec o names tys b0 b m0 m ids ts ns x xs t : gres b0 b m0 m ids ts ns -> oname_ok cs o ->
    Forall (oname_ok cs) names -> ids = x :: xs -> alt_ok (tau m) (tau m x) xs t -> tys = map (tau m) ids ->
    exists b' id m', gen_alt cs o names tys ids b = Some (b', id) /\ gres b0 b' m0 m' [id] [t] [S (list_sum ns)].
  Proof.
    intros G Ho Hnames Eids Halt ->. assert (I : inv b m) by apply G. assert (Hl : length m = length (data b)) by apply I.
    assert (Hlt := g_lt _ _ _ _ _ _ _ G). unfold gen_alt.
    destruct (map_get nats_eqb ids (alt_map b)) as [id|] eqn:Eg.
    - exists b, id, m. split; [reflexivity|]. apply map_get_In in Eg as (s' & Hin & E). apply nats_eqb_eq in E. subst s'.
      destruct (i_alt _ _ I _ _ Hin) as (p & f & n & a & c & Hd). assert (Hlti := def_of_lt _ _ _ Hd).
      destruct (i_ok _ _ I id Hlti) as [Hc|(H1 & H2 & _ & H4)]; [apply (i_ctx _ _ I) in Hc; congruence|].
      unfold flat_ok in H1. unfold size_ok in H2. unfold deps_ok in H4. rewrite Hd in H1, H2.
      destruct (nth_error (data b) id) as [en|] eqn:Ee; [|contradiction].
      eapply gres_hit; [exact G|exact Hlti| | |].
      + rewrite Eids in H1. eapply alt_ok_fun; [|exact Halt]. apply H1.
      + rewrite H2, (g_sz _ _ _ _ _ _ _ G). reflexivity.
      + intros i Hi. eapply reach_step; [exact Ee| |constructor]. apply H4. unfold contains, mentions. rewrite Hd. exact Hi.
    - destruct (new_type_name_ok (lit "Alt") o b Ho) as (ident & nm & ->).
      rewrite ids_ok_true by exact Hlt.
      destruct (name_parts_ok (camel cs) (lit "Branch") names) with (k := 0) (m := @nil (rstr * nat)) as [parts Hparts].
      { eapply Forall_impl; [|exact Hnames]. intros [n|]; [|auto]. intros H. apply H. }
      rewrite Hparts. clear Hparts. cbn [can_char set_name_map].
      set (conv := forallb (fun i => nset_mem i (can_char b)) ids).
      set (en := Entry (TnIdent ident) (DAlt parts ids (first_arms 0 (map (tau m) ids)) (find_nullable 0 (map (tau m) ids))
                          (flat_map first_set (map (tau m) ids)) conv) (nset_extend [] ids)).
      assert (Hdef := def_new (data b) en).
      assert (Hm : map (tau (m ++ [(t, S (list_sum ns))])) ids = map (tau m) ids) by (apply map_tau_app; rewrite Hl; exact Hlt).
      assert (Hz : map (sz (m ++ [(t, S (list_sum ns))])) ids = map (sz m) ids) by (apply map_sz_app; rewrite Hl; exact Hlt).
      set (cc := if conv then nset_insert (length (data b)) (can_char b) else can_char b).
      assert (Hcc : forall y, nset_mem y cc = if Nat.eqb y (length (data b)) then has_char (data b ++ [en]) (length (data b)) else nset_mem y (can_char b)).
      { assert (Hh : has_char (data b ++ [en]) (length (data b)) = conv).
        { unfold has_char. rewrite Hdef. cbn [en_def en]. destruct conv; reflexivity. }
        intros y. rewrite Hh. unfold cc. destruct conv; [apply nset_mem_insert|].
        destruct (Nat.eqb_spec y (length (data b))) as [->|]; [apply (can_char_fresh b m I)|reflexivity]. }
      exists (Bst (data b ++ [en]) None (lit_map b) (cat_map b) ((ids, length (data b)) :: alt_map b) (fix_map b) (var_map b) nm cc (context b)),
        (length (data b)), (m ++ [(t, S (list_sum ns))]).
      split.
      { unfold cc. pose proof (i_eps _ _ I) as He. destruct b; cbn in *; subst. destruct conv; reflexivity. }
      eapply gres_push with (en := en); [exact G| |reflexivity|reflexivity|].
      + apply inv_push; auto.
        * split; [|split; [|split]].
          -- unfold flat_ok. rewrite Hdef. cbn [en_def en]. rewrite <- Hl, tau_new, Hm. split; [|split; [|split; [|split]]].
             ++ rewrite Eids in Hm, Hlt |- *. cbn in Hm. injection Hm as E1 E2. rewrite E1.
                eapply alt_ok_ext; [|exact Halt]. intros y Hy. inversion Hlt as [|? ? _ Hl2]. subst.
                rewrite Forall_forall in Hl2. symmetry. apply tau_app. rewrite Hl. auto.
             ++ eapply Forall_impl; [|exact Hlt]. cbn. intros a Ha. rewrite app_length. lia.
             ++ reflexivity.
             ++ reflexivity.
             ++ rewrite <- Hm. clear. induction ids as [|y ids IH]; cbn; [reflexivity|]. rewrite IH. reflexivity.
          -- unfold size_ok. rewrite Hdef. cbn [en_def en]. rewrite <- Hl, sz_new, Hz, (g_sz _ _ _ _ _ _ _ G). reflexivity.
          -- unfold char_ok. rewrite Hdef. cbn [en_def en]. unfold conv. clear - I Hlt. generalize [en]. clear en conv. intros z.
             induction Hlt as [|y ids Hy Hids IH]; cbn [forallb]; [reflexivity|]. rewrite IH, has_char_app by exact Hy.
             rewrite (i_char _ _ I). reflexivity.
          -- unfold deps_ok, contains, mentions. rewrite Hdef. rewrite nth_error_app2 by lia. rewrite Nat.sub_diag. cbn.
             intros j. rewrite nset_extend_In. cbn. tauto.
        * intros s' i [E|Hin]; [|auto]. injection E as <- <-. right. split; [reflexivity|].
          exists parts, (first_arms 0 (map (tau m) ids)), (find_nullable 0 (map (tau m) ids)), (flat_map first_set (map (tau m) ids)), conv. reflexivity.
      + intros i Hi. cbn. apply nset_extend_In. auto.
  Qed.

  Lemma gen_variable_spec i b m f t : inv b m -> nth_error (context b) i = Some f -> tau m f = t ->
    exists b' id m', gen_variable i b = Some (b', id) /\ gres b b' m m' [id] [t] [1].
  Proof.
    intros I Hf Ht. unfold gen_variable. rewrite Hf. assert (Hl : length m = length (data b)) by apply I.
    destruct (map_get Nat.eqb f (var_map b)) as [id|] eqn:Eg.
    - exists b, id, m. split; [reflexivity|]. apply map_get_In in Eg as (s' & Hin & E). apply Nat.eqb_eq in E. subst s'.
      pose proof (i_var _ _ I _ _ Hin) as Hd. assert (Hlt := def_of_lt _ _ _ Hd).
      destruct (i_ok _ _ I id Hlt) as [Hc|(H1 & H2 & _)]; [apply (i_ctx _ _ I) in Hc; congruence|].
      unfold flat_ok in H1. unfold size_ok in H2. rewrite Hd in H1, H2.
      eapply gres_hit; [apply gres_refl; exact I|exact Hlt| |exact H2|contradiction]. rewrite (proj1 H1). exact Ht.
    - assert (Hin := nth_error_In _ _ Hf). pose proof (i_ctx _ _ I _ Hin) as Hdf. assert (Hlt := def_of_lt _ _ _ Hdf).
      destruct (nth_error (data b) f) as [fe|] eqn:Ef; [|apply nth_error_None in Ef; lia].
      set (en := Entry (TnBox (en_name fe)) (DBox f) []). assert (Hdef := def_new (data b) en).
      eexists _, _, (m ++ [(t, 1)]). split; [reflexivity|].
      eapply gres_push with (en := en); [apply gres_refl; exact I| |reflexivity|reflexivity|contradiction].
      unfold push_entry, set_data, set_var_map; cbn [data eps_id lit_map cat_map alt_map fix_map var_map name_map can_char context].
      rewrite (i_eps _ _ I). apply inv_push; auto.
      + split; [|split; [|split]].
        * unfold flat_ok. rewrite Hdef. cbn [en_def en]. rewrite <- Hl, tau_new, tau_app by lia. split; [auto|].
          rewrite app_length; lia.
        * unfold size_ok. rewrite Hdef. cbn. rewrite <- Hl. apply sz_new.
        * unfold char_ok. rewrite Hdef. exact Logic.I.
        * unfold deps_ok, contains, mentions. rewrite Hdef. rewrite nth_error_app2 by lia. rewrite Nat.sub_diag. intros j; reflexivity.
      + intros y. destruct (Nat.eqb_spec y (length (data b))) as [->|]; [|reflexivity].
        rewrite (can_char_fresh b m I). unfold has_char. rewrite Hdef. reflexivity.
      + intros f' j [E|Hj]; [|auto]. injection E as <- <-. right. split; reflexivity.
  Qed.

  (** ** Composition *)
  Lemma gres_cons b b1 b2 m m1 m2 id t n ids ts ns :
    gres b b1 m m1 [id] [t] [n] -> gres b1 b2 m1 m2 ids ts ns -> gres b b2 m m2 (id :: ids) (t :: ts) (n :: ns).
  Proof.
    intros [I1 [l1 D1] [k1 M1] L1 T1 Z1 C1 N1] [I2 [l2 D2] [k2 M2] L2 T2 Z2 C2 N2].
    assert (Hl1 : length m1 = length (data b1)) by apply I1.
    inversion L1 as [|? ? Hid _]; subst x l. cbn in T1, Z1. injection T1 as T1. injection Z1 as Z1.
    split; auto.
    - exists (l1 ++ l2). rewrite D2, D1, app_assoc. reflexivity.
    - exists (k1 ++ k2). rewrite M2, M1, app_assoc. reflexivity.
    - constructor; [rewrite D2, app_length; lia|exact L2].
    - cbn. rewrite T2, M2, tau_app by lia. congruence.
    - cbn. rewrite Z2, M2, sz_app by lia. congruence.
    - congruence.
    - intros x Hx. destruct (Nat.lt_ge_cases x (length (data b1))) as [Hlt|Hge].
      + destruct (N1 x) as (i & [<-|[]] & Hi); [lia|]. exists id. split; [left; reflexivity|]. rewrite D2. apply reach_app. exact Hi.
      + destruct (N2 x) as (i & Hin & Hi); [lia|]. exists i. split; [right; exact Hin|exact Hi].
  Qed.

  Definition gspec (e : texpr) : Prop := forall G b m, inv b m -> map snd G = map (tau m) (context b) -> wt G e ->
    names_ok cs e -> (forall f, In f (context b) -> tsize e < sz m f) ->
    exists b' id m', gen cs e b = Some (b', id) /\ gres b b' m m' [id] [get_type e] [tsize e].

  Lemma ctx_lt b m f : inv b m -> In f (context b) -> f < length m.
  Proof. intros I Hf. rewrite (i_len _ _ I). eapply def_of_lt. apply I. exact Hf. Qed.
  Lemma ctx_tau_app b m l : inv b m -> map (tau (m ++ l)) (context b) = map (tau m) (context b).
  Proof. intros I. apply map_tau_app. apply Forall_forall. intros f Hf. eapply ctx_lt; eauto. Qed.

  Lemma gen_list_spec l : Forall gspec l -> forall b m, inv b m ->
    Forall (fun e => exists G, map snd G = map (tau m) (context b) /\ wt G e) l -> Forall (names_ok cs) l ->
    (forall e f, In e l -> In f (context b) -> tsize e < sz m f) ->
    exists b' ids m', gen_list (gen cs) l b = Some (b', ids) /\ gres b b' m m' ids (map get_type l) (map tsize l).
  Proof.
    induction 1 as [|e l He Hl IH]; intros b m I Hw Hn Hs; cbn [gen_list].
    - exists b, [], m. split; [reflexivity|]. apply gres_refl. exact I.
    - inversion Hw as [|? ? (G & HG & Hwt) Hw']; subst. inversion Hn as [|? ? Hne Hn']; subst.
      destruct (He G b m I HG Hwt Hne (fun f Hf => Hs e f (or_introl eq_refl) Hf)) as (b1 & id & m1 & E1 & R1).
      rewrite E1. destruct R1 as [I1 D1 [k1 M1] L1 T1 Z1 C1 N1] eqn:ER. clear ER.
      destruct (IH b1 m1 I1) as (b2 & ids & m2 & E2 & R2).
      + eapply Forall_impl; [|exact Hw']. intros x (G' & HG' & Hx). exists G'. split; [|exact Hx].
        rewrite C1, HG', M1. symmetry. apply ctx_tau_app. exact I.
      + exact Hn'.
      + intros x f Hx Hf. rewrite C1 in Hf. rewrite M1, sz_app by (eapply ctx_lt; eauto). apply Hs; [right; exact Hx|exact Hf].
      + rewrite E2. exists b2, (id :: ids), m2. split; [reflexivity|]. cbn [map]. eapply gres_cons; [|exact R2].
        split; auto. exists k1. exact M1.
  Qed.

  Lemma gen_cat_eq a l t b : gen cs (TCat a l t) b =
    match gen_list (gen cs) l b with None => None | Some (b1, ids) => gen_cat cs (a_name a) (map t_name l) ids b1 end.
  Proof.
    cbn [gen]. assert (H : forall l b, (fix go (l : list texpr) (b : bst) : option (bst * list nat) :=
               match l with
               | [] => Some (b, [])
               | e :: l' =>
                 match gen cs e b with
                 | None => None
                 | Some (b1, id) =>
                   match go l' b1 with
                   | None => None
                   | Some (b2, ids) => Some (b2, id :: ids)
                   end
                 end
               end) l b = gen_list (gen cs) l b).
    { induction l0 as [|e l0 IH]; intros b0; cbn [gen_list]; [reflexivity|].
      destruct (gen cs e b0) as [[b1 id]|]; [|reflexivity]. rewrite IH. reflexivity. }
    rewrite H. reflexivity.
  Qed.
  Lemma gen_alt_eq a l t b : gen cs (TAlt a l t) b =
    match gen_list (gen cs) l b with None => None | Some (b1, ids) => gen_alt cs (a_name a) (map t_name l) (map get_type l) ids b1 end.
  Proof.
    cbn [gen]. assert (H : forall l b, (fix go (l : list texpr) (b : bst) : option (bst * list nat) :=
               match l with
               | [] => Some (b, [])
               | e :: l' =>
                 match gen cs e b with
                 | None => None
                 | Some (b1, id) =>
                   match go l' b1 with
                   | None => None
                   | Some (b2, ids) => Some (b2, id :: ids)
                   end
                 end
               end) l b = gen_list (gen cs) l b).
    { induction l0 as [|e l0 IH]; intros b0; cbn [gen_list]; [reflexivity|].
      destruct (gen cs e b0) as [[b1 id]|]; [|reflexivity]. rewrite IH. reflexivity. }
    rewrite H. reflexivity.
  Qed.

  Lemma wt_seq_ok G t es t' : wt_seq G t es t' -> forall f xs, map f xs = map get_type es -> seq_ok f t xs t'.
  Proof.
    induction 1 as [G t|G t e es t' He Hd Hs IH]; intros f [|x xs] E; cbn in E; try discriminate; [constructor|].
    injection E as E1 E2. constructor.
    - rewrite E1. rewrite cset_disjoint_spec in Hd. exact Hd.
    - rewrite E1. auto.
  Qed.
  Lemma wt_branches_ok G t es t' : wt_branches G t es t' -> forall f xs, map f xs = map get_type es -> alt_ok f t xs t'.
  Proof.
    induction 1 as [G t|G t e es t' He Hn Hd Hs IH]; intros f [|x xs] E; cbn in E; try discriminate; [constructor|].
    injection E as E1 E2. constructor.
    - rewrite E1. intros [A B]. rewrite A, B in Hn. discriminate.
    - rewrite E1. rewrite cset_disjoint_spec in Hd. exact Hd.
    - rewrite E1. auto.
  Qed.
  Lemma wt_seq_all G t es t' : wt_seq G t es t' -> Forall (wt G) es.
  Proof. induction 1; constructor; auto. Qed.
  Lemma wt_branches_all G t es t' : wt_branches G t es t' -> Forall (wt G) es.
  Proof. induction 1; constructor; auto. Qed.
  Lemma ung_snd G : map snd (ung G) = map snd G.
  Proof. unfold ung. rewrite map_map. reflexivity. Qed.

  Lemma tsize_list e l : In e l -> tsize e < S (list_sum (map tsize l)).
  Proof.
    induction l as [|x l IH]; intros []; change (list_sum (map tsize (x :: l))) with (tsize x + list_sum (map tsize l)); [subst; lia|]. specialize (IH H). lia.
  Qed.

  (** ** Fixed points *)
  Lemma inv_hole b m ident i nm t n :
    inv b m -> t = get_type i -> n = S (tsize i) ->
    let id := length (data b) in
    inv (Bst (data b ++ [Entry (TnIdent ident) (DFix None) []]) None (lit_map b) (cat_map b) (alt_map b)
          ((i, id) :: fix_map b) (var_map b) nm (can_char b) (id :: context b)) (m ++ [(t, n)]).
  Proof.
    intros I -> -> id. assert (Hlen : length m = length (data b)) by apply I.
    set (en := Entry (TnIdent ident) (DFix None) []). set (d' := data b ++ [en]).
    assert (Hd : forall i x, def_of (data b) i = Some x -> def_of d' i = Some x).
    { intros k x Hx. unfold d'. rewrite def_app; [exact Hx|]. eapply def_of_lt; eauto. }
    assert (Hnew : def_of d' id = Some (DFix None)) by apply (def_new (data b) en).
    split; cbn [data context eps_id lit_map cat_map alt_map fix_map var_map can_char].
    - unfold d'. rewrite !app_length. cbn. lia.
    - intros f [<-|Hf]; [exact Hnew|]. apply Hd. apply I. exact Hf.
    - constructor; [|apply I]. intros Hin. pose proof (ctx_lt _ _ _ I Hin). unfold id in *. lia.
    - intros k Hk. unfold d' in Hk. rewrite app_length in Hk. cbn in Hk.
      destruct (Nat.eq_dec k id) as [->|Hne]; [left; left; reflexivity|].
      assert (Hlt : k < length (data b)) by (unfold id in Hne; lia).
      destruct (i_ok _ _ I k Hlt) as [Hc|Hg]; [left; right; exact Hc|right].
      eapply good_ext; [| | | |exact Hg]; auto.
      + unfold d'. rewrite nth_error_app1 by exact Hlt. reflexivity.
      + unfold d'. rewrite app_length. lia.
      + intros j Hj. rewrite tau_app, sz_app by lia. unfold d'. rewrite has_char_app by exact Hj. auto.
    - reflexivity.
    - intros s k Hs. destruct (i_lit _ _ I _ _ Hs) as [c Hc]. eauto.
    - intros s k Hs. destruct (i_cat _ _ I _ _ Hs) as (x & p & Hc). eauto.
    - intros s k Hs. destruct (i_alt _ _ I _ _ Hs) as (p & f & x & a & c & Hc). exists p, f, x, a, c. auto.
    - intros f k Hs. apply Hd. apply I. exact Hs.
    - intros s k [E|Hs].
      + injection E as <- <-. unfold id. rewrite <- Hlen, tau_new, sz_new. split; [reflexivity|]. split; [reflexivity|].
        exists None. rewrite Hlen. exact Hnew.
      + destruct (i_fix _ _ I _ _ Hs) as (H1 & H2 & o & H3).
        assert (k < length m) by (rewrite Hlen; eapply def_of_lt; eauto).
        rewrite tau_app, sz_app by assumption. split; [exact H1|]. split; [exact H2|]. exists o. auto.
    - intros x. rewrite (i_char _ _ I). destruct (Nat.lt_ge_cases x (length (data b))) as [Hlt|Hge].
      + unfold d'. rewrite has_char_app by exact Hlt. reflexivity.
      + unfold has_char at 1. unfold def_of. rewrite (proj2 (nth_error_None (data b) x)) by exact Hge. cbn.
        destruct (Nat.eq_dec x id) as [->|Hne]; [unfold has_char; rewrite Hnew; reflexivity|].
        unfold has_char, def_of. rewrite (proj2 (nth_error_None d' x)); [reflexivity|]. unfold d'. rewrite app_length. cbn. unfold id in Hne. lia.
  Qed.

  Lemma update_length {A} n (f : A -> A) l : length (update n f l) = length l.
  Proof. revert n; induction l as [|x l IH]; intros [|n]; cbn; auto. Qed.
  Lemma update_nth {A} n (f : A -> A) l i :
    nth_error (update n f l) i = if Nat.eqb i n then option_map f (nth_error l i) else nth_error l i.
  Proof.
    revert n i; induction l as [|x l IH]; intros [|n] [|i]; cbn; try reflexivity.
    - destruct (Nat.eqb i n); reflexivity.
    - apply IH.
  Qed.
  Lemma update_app {A} (f : A -> A) l x l' : update (length l) f (l ++ x :: l') = l ++ f x :: l'.
  Proof. induction l as [|y l IH]; cbn; [reflexivity|]. rewrite IH. reflexivity. Qed.

  Definition fill (id j : nat) (d : list entry) : list entry :=
    update id (fun en => Entry (en_name en) (DFix (Some j)) [j]) d.

  Lemma inv_fill b m id ctx j :
    inv b m -> context b = id :: ctx -> j < length (data b) -> tau m j = tau m id -> sz m id = S (sz m j) ->
    inv (set_data (fill id j (data b)) (set_context ctx b)) m.
  Proof.
    intros I Hctx Hj Ht Hs. assert (Hlen : length m = length (data b)) by apply I.
    set (d' := fill id j (data b)).
    assert (Hhole : def_of (data b) id = Some (DFix None)) by (apply I; rewrite Hctx; left; reflexivity).
    assert (Hnth : forall i, i <> id -> nth_error d' i = nth_error (data b) i).
    { intros i Hi. unfold d', fill. rewrite update_nth. rewrite (proj2 (Nat.eqb_neq _ _) Hi). reflexivity. }
    assert (Hdef : forall i, i <> id -> def_of d' i = def_of (data b) i) by (intros i Hi; unfold def_of; rewrite Hnth by exact Hi; reflexivity).
    assert (Hid : def_of d' id = Some (DFix (Some j))).
    { unfold d', fill, def_of. rewrite update_nth, Nat.eqb_refl. unfold def_of in Hhole. destruct (nth_error (data b) id); [reflexivity|discriminate]. }
    assert (Hld : length d' = length (data b)) by apply update_length.
    assert (Hch : forall i, has_char d' i = has_char (data b) i).
    { intros i. destruct (Nat.eq_dec i id) as [->|Hne]; unfold has_char; [rewrite Hid, Hhole; reflexivity|rewrite Hdef by exact Hne; reflexivity]. }
    assert (Hne : forall i x, def_of (data b) i = Some x -> x <> DFix None -> def_of d' i = Some x).
    { intros i x Hx Hn. rewrite Hdef; [exact Hx|]. intros ->. congruence. }
    pose proof (i_nodup _ _ I) as Hnd. rewrite Hctx in Hnd. inversion Hnd as [|? ? Hni Hnd']; subst.
    assert (Hfl : id < length (data b)) by (eapply def_of_lt; eauto).
    split; cbn [data context eps_id lit_map cat_map alt_map fix_map var_map can_char set_data set_context].
    - lia.
    - intros f Hf. rewrite Hdef; [apply I; rewrite Hctx; right; exact Hf|]. intros ->. contradiction.
    - exact Hnd'.
    - intros i Hi. rewrite Hld in Hi. destruct (Nat.eq_dec i id) as [->|Hn].
      + right. split; [|split; [|split]].
        * unfold flat_ok. rewrite Hid. rewrite Hld. auto.
        * unfold size_ok. rewrite Hid. exact Hs.
        * unfold char_ok. rewrite Hid. exact Logic.I.
        * unfold deps_ok, contains, mentions. rewrite Hid. unfold d', fill. rewrite update_nth, Nat.eqb_refl.
          unfold def_of in Hhole. destruct (nth_error (data b) id); [|discriminate]. cbn. intros k; reflexivity.
      + destruct (i_ok _ _ I i Hi) as [Hc|Hg]; [rewrite Hctx in Hc; destruct Hc as [E|Hc]; [congruence|left; exact Hc]|right].
        eapply good_ext; [| | | |exact Hg]; auto. lia.
    - apply I.
    - intros s i Hin. destruct (i_lit _ _ I _ _ Hin) as [c Hc]. exists c. apply Hne; [exact Hc|discriminate].
    - intros s i Hin. destruct (i_cat _ _ I _ _ Hin) as (x & p & Hc). exists x, p. apply Hne; [exact Hc|discriminate].
    - intros s i Hin. destruct (i_alt _ _ I _ _ Hin) as (p & f & x & a & c & Hc). exists p, f, x, a, c. apply Hne; [exact Hc|discriminate].
    - intros f i Hin. apply Hne; [apply I; exact Hin|discriminate].
    - intros s i Hin. destruct (i_fix _ _ I _ _ Hin) as (H1 & H2 & o & H3). split; [exact H1|]. split; [exact H2|].
      destruct (Nat.eq_dec i id) as [->|Hn]; [exists (Some j); exact Hid|exists o; rewrite Hdef by exact Hn; exact H3].
    - intros x. rewrite Hch. apply I.
  Qed.

  Lemma reach_fill d id j x y : (forall en, nth_error d id = Some en -> en_deps en = []) ->
    reach d x y -> reach (fill id j d) x y.
  Proof.
    intros Hd. induction 1 as [i|i k l en He Hk _ IH]; [constructor|].
    destruct (Nat.eq_dec i id) as [->|Hne]; [rewrite (Hd en He) in Hk; contradiction|].
    eapply reach_step; [|exact Hk|exact IH]. unfold fill. rewrite update_nth, (proj2 (Nat.eqb_neq _ _) Hne). exact He.
  Qed.

  Theorem gen_spec e : gspec e.
  Proof.
    induction e using texpr_ind'; intros G b m I HG Hwt Hn Hs; inversion Hwt; subst.
    - cbn [gen get_type tsize]. apply gen_epsilon_spec. exact I.
    - cbn [gen get_type tsize]. apply gen_literal_spec; [exact I|]. apply (names_ok_name cs _ Hn).
    - rewrite gen_cat_eq. pose proof (names_ok_name cs _ Hn) as Hn1.
      assert (Hn2 : Forall (names_ok cs) (e :: es)).
      { apply names_ok_list. unfold names_ok in Hn. cbn [t_names] in Hn. apply Forall_app in Hn. apply Hn. }
      destruct (gen_list_spec _ H b m I) as (b1 & ids & m1 & -> & R).
      { constructor; [exists G; auto|]. apply wt_seq_all in H6. eapply Forall_impl; [|exact H6].
        intros y Hy. exists (ung G). rewrite ung_snd. auto. }
      { exact Hn2. }
      { intros y f Hy Hf. specialize (Hs f Hf). cbn [tsize] in Hs. pose proof (tsize_list _ _ Hy). lia. }
      pose proof (g_tau _ _ _ _ _ _ _ R) as Ht. destruct ids as [|x xs]; [discriminate|]. cbn [map] in Ht. injection Ht as Ht1 Ht2.
      cbn [get_type tsize].
      eapply gen_cat_spec; [exact R|exact Hn1| |reflexivity| |].
      + clear - Hn2. induction Hn2 as [|y l Hy Hl IH]; constructor; [apply names_ok_name; exact Hy|exact IH].
      + rewrite Ht1. assumption.
      + rewrite Ht1. eapply wt_seq_ok; eauto.
    - rewrite gen_alt_eq. pose proof (names_ok_name cs _ Hn) as Hn1.
      assert (Hn2 : Forall (names_ok cs) (e :: es)).
      { apply names_ok_list. unfold names_ok in Hn. cbn [t_names] in Hn. apply Forall_app in Hn. apply Hn. }
      destruct (gen_list_spec _ H b m I) as (b1 & ids & m1 & -> & R).
      { constructor; [exists G; auto|]. apply wt_branches_all in H5. eapply Forall_impl; [|exact H5].
        intros y Hy. exists G. auto. }
      { exact Hn2. }
      { intros y f Hy Hf. specialize (Hs f Hf). cbn [tsize] in Hs. pose proof (tsize_list _ _ Hy). lia. }
      pose proof (g_tau _ _ _ _ _ _ _ R) as Ht. destruct ids as [|x xs]; [discriminate|]. pose proof Ht as Ht'. cbn [map] in Ht. injection Ht as Ht1 Ht2.
      cbn [get_type tsize].
      eapply gen_alt_spec; [exact R|exact Hn1| |reflexivity| |].
      + clear - Hn2. induction Hn2 as [|y l Hy Hl IH]; constructor; [apply names_ok_name; exact Hy|exact IH].
      + rewrite Ht1. eapply wt_branches_ok; eauto.
      + symmetry. exact Ht'.
    - cbn [gen get_type tsize].
      destruct (map_get texpr_eqb e (fix_map b)) as [id|] eqn:Eg.
      + exists b, id, m. split; [reflexivity|]. apply map_get_In in Eg as (e' & Hin & E).
        destruct (i_fix _ _ I _ _ Hin) as (F1 & F2 & o & F3).
        eapply gres_hit; [apply gres_refl; exact I|eapply def_of_lt; eauto| | |contradiction].
        * rewrite F1. symmetry. apply texpr_eqb_type. exact E.
        * rewrite F2. f_equal. symmetry. apply texpr_eqb_size. exact E.
      + destruct (new_type_name_ok (lit "Fix") (a_name a) b (names_ok_name cs _ Hn)) as (ident & nm & ->).
        assert (Hlen : length m = length (data b)) by apply I.
        pose proof (inv_hole b m ident e nm _ _ I eq_refl eq_refl) as I1. cbv zeta in I1.
        set (b1 := Bst _ _ _ _ _ _ _ _ _ _) in I1.
        assert (Eb : set_context (length (data b) :: context (push_entry (Entry (TnIdent ident) (DFix None) []) (set_fix_map ((e, length (data b)) :: fix_map (set_name_map nm b)) (set_name_map nm b))))
                (push_entry (Entry (TnIdent ident) (DFix None) []) (set_fix_map ((e, length (data b)) :: fix_map (set_name_map nm b)) (set_name_map nm b))) = b1).
        { pose proof (i_eps _ _ I) as He. unfold b1. destruct b; cbn in *. subst. reflexivity. }
        rewrite Eb. clear Eb.
        destruct (IHe ((false, get_type e) :: G) b1 _ I1) as (b4 & j & m4 & E4 & R4).
        { cbn [map snd context b1]. rewrite HG. rewrite (ctx_tau_app b m _ I). rewrite <- Hlen, tau_new. reflexivity. }
        { assumption. }
        { unfold names_ok in *. cbn [t_names] in Hn. apply Forall_app in Hn. apply Hn. }
        { intros f [<-|Hf]; [rewrite <- Hlen, sz_new; lia|].
          specialize (Hs f Hf). cbn [tsize] in Hs. rewrite sz_app by (eapply ctx_lt; eauto). lia. }
        rewrite E4. destruct R4 as [I4 [l4 D4] [k4 M4] L4 T4 Z4 C4 N4].
        cbn [context b1] in C4. inversion L4 as [|? ? Hj _]; subst x l. cbn in T4, Z4. injection T4 as T4. injection Z4 as Z4.
        cbv zeta. cbn [data set_context]. destruct (nth_error (data b4) j) as [ej|] eqn:Ej; [|apply nth_error_None in Ej; lia].
        assert (Hidlt : length (data b) < length (data b4)).
        { rewrite D4. cbn [data b1]. rewrite !app_length. cbn. lia. }
        rewrite (proj2 (Nat.ltb_lt _ _) Hidlt).
        fold (fill (length (data b)) j (data b4)).
        assert (Htid : tau m4 (length (data b)) = get_type e).
        { rewrite M4, tau_app by (rewrite app_length; cbn; lia). rewrite <- Hlen. apply tau_new. }
        assert (Hsid : sz m4 (length (data b)) = S (tsize e)).
        { rewrite M4, sz_app by (rewrite app_length; cbn; lia). rewrite <- Hlen. apply sz_new. }
        eexists _, _, m4. split; [reflexivity|]. split.
        * rewrite C4. cbn [tl]. apply inv_fill; auto; congruence.
        * cbn [data set_data]. exists (Entry (TnIdent ident) (DFix (Some j)) [j] :: l4).
          rewrite D4. cbn [data b1]. unfold fill. rewrite <- app_assoc. cbn [app]. rewrite update_app. reflexivity.
        * exists ([(get_type e, S (tsize e))] ++ k4). rewrite M4, app_assoc. reflexivity.
        * constructor; [|constructor]. cbn [data set_data]. unfold fill. rewrite update_length. exact Hidlt.
        * cbn. congruence.
        * cbn. congruence.
        * cbn [context set_data set_context]. rewrite C4. reflexivity.
        * intros x Hx. cbn [data set_data] in *. unfold fill in Hx. rewrite update_length in Hx.
          exists (length (data b)). split; [left; reflexivity|].
          destruct (Nat.eq_dec x (length (data b))) as [->|Hne]; [constructor|].
          destruct (N4 x) as (i & [<-|[]] & Hi).
          { cbn [data b1]. rewrite app_length. cbn. lia. }
          assert (Hnb : nth_error (data b4) (length (data b)) = Some (Entry (TnIdent ident) (DFix None) [])).
          { rewrite D4. cbn [data b1]. rewrite <- app_assoc. rewrite nth_error_app2 by lia. rewrite Nat.sub_diag. reflexivity. }
          eapply reach_step; [| |apply reach_fill; [|exact Hi]].
          -- unfold fill. rewrite update_nth, Nat.eqb_refl, Hnb. reflexivity.
          -- left. reflexivity.
          -- intros en Hen. rewrite Hnb in Hen. injection Hen as <-. reflexivity.
    - cbn [gen get_type tsize]. assert (Hi : nth_error (map snd G) i = Some t) by (rewrite nth_error_map; match goal with H : nth_error G i = _ |- _ => rewrite H end; reflexivity).
      rewrite HG, nth_error_map in Hi. destruct (nth_error (context b) i) as [f|] eqn:Ef; [|discriminate].
      injection Hi as Hi. eapply gen_variable_spec; eauto.
  Qed.

  (** The whole table. *)
  Corollary generate_spec e : wt [] e -> names_ok cs e ->
    exists b root m, generate cs e = Some (b, root) /\ length m = length (data b) /\ root < length (data b)
      /\ (forall id, id < length (data b) -> good (data b) m id)
      /\ tau m root = get_type e /\ sz m root = tsize e
      /\ (forall x, x < length (data b) -> reach (data b) root x).
  Proof.
    intros Hwt Hn. destruct (gen_spec e [] bst_default [] inv_default eq_refl Hwt Hn) as (b & root & m & E & R); [contradiction|].
    destruct R as [I _ _ L T Z C N]. exists b, root, m. split; [exact E|].
    inversion L; subst. cbn in T, Z. injection T as T. injection Z as Z.
    split; [apply I|]. split; [assumption|]. split; [|split; [exact T|split; [exact Z|]]].
    - intros id Hid. destruct (i_ok _ _ I id Hid) as [Hc|Hg]; [|exact Hg]. rewrite C in Hc. contradiction.
    - intros x Hx. destruct (N x) as (i & [<-|[]] & Hi); [cbn; lia|exact Hi].
  Qed.
End GenSpec.
