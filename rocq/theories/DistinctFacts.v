(** * DistinctFacts: no definition is generated twice. *)
From Verif Require Export SpecDistinct EmitFacts.
From Coq Require Import List Lia.

(** Every type that is remembered is found under its own key. *)
Record uniq (b : bst) : Prop := {
  u_lit : forall i s c, def_of (data b) i = Some (DLit s c) -> map_get rstr_eqb s (lit_map b) = Some i;
  u_cat : forall i n p ids, def_of (data b) i = Some (DCat n p ids) -> map_get nats_eqb ids (cat_map b) = Some i;
  u_alt : forall i p ids f n a c, def_of (data b) i = Some (DAlt p ids f n a c) -> map_get nats_eqb ids (alt_map b) = Some i;
  u_box : forall i f, def_of (data b) i = Some (DBox f) -> map_get Nat.eqb f (var_map b) = Some i }.

Lemma uniq_default : uniq bst_default.
Proof. split; intros [|?]; discriminate. Qed.
Lemma uniq_distinct b i j x y : uniq b -> def_of (data b) i = Some x -> def_of (data b) j = Some y -> same_definition x y -> i = j.
Proof. intros U Hi Hj S. destruct S; [apply (u_lit _ U) in Hi, Hj | apply (u_cat _ U) in Hi, Hj | apply (u_alt _ U) in Hi, Hj | apply (u_box _ U) in Hi, Hj]; congruence. Qed.

Lemma def_push d en i x : def_of (d ++ [en]) i = Some x -> def_of d i = Some x \/ i = length d /\ x = en_def en.
Proof.
  unfold def_of. intros H. destruct (Nat.lt_ge_cases i (length d)) as [Hi | Hi]; [rewrite nth_error_app1 in H by exact Hi; auto |].
  rewrite nth_error_app2 in H by exact Hi. destruct (i - length d) as [| k] eqn:Ek; cbn in H; [| destruct k; discriminate]. injection H as <-. right. split; [lia | reflexivity].
Qed.
Lemma nats_eqb_refl l : nats_eqb l l = true.
Proof. now apply nats_eqb_eq. Qed.

(** What one step of generation does. *)
Definition grows (b b' : bst) (n : nat) : Prop :=
  uniq b' /\ length (data b') <= length (data b) + n /\ exists l, data b' = data b ++ l.
Lemma grows_refl b n : uniq b -> grows b b n.
Proof. intros U. split; [exact U |]. split; [lia |]. exists []. now rewrite app_nil_r. Qed.
Lemma grows_trans b b1 b2 n n' : grows b b1 n -> grows b1 b2 n' -> grows b b2 (n + n').
Proof. intros (_ & H1 & l & E1) (U & H2 & l' & E2). split; [exact U |]. split; [lia |]. exists (l ++ l'). now rewrite E2, E1, app_assoc. Qed.
Lemma grows_le b b' n n' : n <= n' -> grows b b' n -> grows b b' n'.
Proof. intros Hn (U & H & E). split; [exact U |]. split; [lia | exact E]. Qed.
Lemma grows_push b b' n en : uniq b' -> 1 <= n -> data b' = data b ++ [en] -> grows b b' n.
Proof. intros U Hn E. split; [exact U |]. rewrite E, app_length. cbn. split; [lia | eauto]. Qed.

Section Distinct.
  Variable cs : casing.

  Lemma gen_epsilon_grows b b' id : uniq b -> gen_epsilon b = Some (b', id) -> grows b b' 1.
  Proof.
    intros U. unfold gen_epsilon. destruct (eps_id b); intros E; injection E as <- <-; [now apply grows_refl |].
    eapply grows_push; [| lia | reflexivity]. split; cbn; intros i; intros; (apply def_push in H as [H | [-> H]]; [| discriminate]);
    [eapply u_lit | eapply u_cat | eapply u_alt | eapply u_box]; eauto.
  Qed.
  Lemma gen_literal_grows o s b b' id : uniq b -> gen_literal cs o s b = Some (b', id) -> grows b b' 1.
  Proof.
    intros U. unfold gen_literal. destruct (map_get rstr_eqb s (lit_map b)) eqn:Eg; [intros E; injection E as <- <-; now apply grows_refl |].
    destruct (new_type_name _ _ _ _) as [[[x ident] b1]|] eqn:En; [|discriminate]. apply new_type_name_inv in En as (-> & nm & ->). intros E.
    assert (K : exists cv can, b' = push_entry (Entry (TnIdent ident) (DLit s cv) []) (set_lit_map ((s, length (data b)) :: lit_map b) (set_can_char can (set_name_map nm b)))).
    { destruct s as [|c [|c' s]]; injection E as <- <-; cbn; eexists _, _; unfold push_entry, set_lit_map, set_can_char, set_name_map, set_data; cbn; reflexivity. }
    destruct K as (cv & can & ->). eapply grows_push; [| lia | reflexivity].
    split; cbn; intros i; intros; apply def_push in H as [H | [-> H]]; try discriminate.
    - apply (u_lit _ U) in H. destruct (rstr_eqb s0 s) eqn:Es; [apply rstr_eqb_eq in Es; subst; congruence | exact H].
    - injection H as <- <-. now rewrite rstr_eqb_refl.
    - eapply u_cat; eauto.
    - eapply u_alt; eauto.
    - eapply u_box; eauto.
  Qed.
  Lemma gen_cat_grows o names ids b b' id : uniq b -> gen_cat cs o names ids b = Some (b', id) -> grows b b' 1.
  Proof.
    intros U. unfold gen_cat. destruct (map_get nats_eqb ids (cat_map b)) eqn:Eg; [intros E; injection E as <- <-; now apply grows_refl |].
    destruct (new_type_name _ _ _ _) as [[[x ident] b1]|] eqn:En; [|discriminate]. apply new_type_name_inv in En as (-> & nm & ->).
    destruct (ids_ok _ _); [|discriminate]. destruct (name_parts _ _ _ _ _) as [parts|]; [|discriminate]. intros E. injection E as <- <-.
    eapply grows_push; [| lia | reflexivity].
    split; cbn; intros i; intros; apply def_push in H as [H | [-> H]]; try discriminate.
    - eapply u_lit; eauto.
    - apply (u_cat _ U) in H. destruct (nats_eqb ids0 ids) eqn:Es; [apply nats_eqb_eq in Es; subst; congruence | exact H].
    - injection H as _ _ ->. now rewrite nats_eqb_refl.
    - eapply u_alt; eauto.
    - eapply u_box; eauto.
  Qed.
  Lemma gen_alt_grows o names tys ids b b' id : uniq b -> gen_alt cs o names tys ids b = Some (b', id) -> grows b b' 1.
  Proof.
    intros U. unfold gen_alt. destruct (map_get nats_eqb ids (alt_map b)) eqn:Eg; [intros E; injection E as <- <-; now apply grows_refl |].
    destruct (new_type_name _ _ _ _) as [[[x ident] b1]|] eqn:En; [|discriminate]. apply new_type_name_inv in En as (-> & nm & ->).
    destruct (ids_ok _ _); [|discriminate]. destruct (name_parts _ _ _ _ _) as [parts|]; [|discriminate]. cbv zeta. intros E. injection E as <- <-.
    assert (Hdata : forall c, data (push_entry (Entry (TnIdent ident) (DAlt parts ids (first_arms 0 tys) (find_nullable 0 tys) (flat_map first_set tys) (forallb (fun i => nset_mem i (can_char (set_name_map nm b))) ids)) (nset_extend [] ids))
      (set_alt_map ((ids, length (data b)) :: alt_map (if c : bool then set_can_char (nset_insert (length (data b)) (can_char (set_name_map nm b))) (set_name_map nm b) else set_name_map nm b))
        (if c then set_can_char (nset_insert (length (data b)) (can_char (set_name_map nm b))) (set_name_map nm b) else set_name_map nm b)))
      = data b ++ [Entry (TnIdent ident) (DAlt parts ids (first_arms 0 tys) (find_nullable 0 tys) (flat_map first_set tys) (forallb (fun i => nset_mem i (can_char (set_name_map nm b))) ids)) (nset_extend [] ids)]) by (intros []; reflexivity).
    eapply grows_push; [| lia | apply Hdata].
    split; rewrite Hdata; intros i; intros; apply def_push in H as [H | [-> H]]; try discriminate.
    - destruct (forallb _ _); cbn; eapply u_lit; eauto.
    - destruct (forallb _ _); cbn; eapply u_cat; eauto.
    - apply (u_alt _ U) in H. destruct (forallb _ _); cbn; (destruct (nats_eqb ids0 ids) eqn:Es; [apply nats_eqb_eq in Es; subst; congruence | exact H]).
    - cbn [en_def] in H. injection H as <- <- _ _ _ _. destruct (forallb _ _); cbn; now rewrite nats_eqb_refl.
    - destruct (forallb _ _); cbn; eapply u_box; eauto.
  Qed.
  Lemma gen_variable_grows i b b' id : uniq b -> gen_variable i b = Some (b', id) -> grows b b' 1.
  Proof.
    intros U. unfold gen_variable. destruct (nth_error (context b) i) as [f|]; [|discriminate].
    destruct (map_get Nat.eqb f (var_map b)) eqn:Eg; [intros E; injection E as <- <-; now apply grows_refl |].
    destruct (nth_error (data b) f); [|discriminate]. intros E. injection E as <- <-.
    eapply grows_push; [| lia | reflexivity].
    split; cbn; intros k; intros; apply def_push in H as [H | [-> H]]; try discriminate.
    - eapply u_lit; eauto.
    - eapply u_cat; eauto.
    - eapply u_alt; eauto.
    - apply (u_box _ U) in H. destruct (Nat.eqb_spec f0 f) as [-> | Hf]; [congruence | exact H].
    - injection H as <-. now rewrite Nat.eqb_refl.
  Qed.

  Definition dspec (e : texpr) : Prop := forall b b' id, uniq b -> gen cs e b = Some (b', id) -> grows b b' (tsize e).
  Lemma gen_list_grows l : Forall dspec l -> forall b b' ids, uniq b -> gen_list (gen cs) l b = Some (b', ids) -> grows b b' (list_sum (map tsize l)).
  Proof.
    induction 1 as [| e l He _ IH]; intros b b' ids U E; cbn [gen_list] in E; [injection E as <- <-; now apply grows_refl |].
    destruct (gen cs e b) as [[b1 id]|] eqn:E1; [|discriminate]. destruct (gen_list (gen cs) l b1) as [[b2 ids2]|] eqn:E2; [|discriminate]. injection E as <- <-.
    pose proof (He _ _ _ U E1) as G1. cbn [map list_sum fold_right]. change (fold_right Init.Nat.add 0 (map tsize l)) with (list_sum (map tsize l)). eapply grows_trans; [exact G1 |]. eapply IH; [apply G1 | exact E2].
  Qed.
  Lemma gen_grows e : dspec e.
  Proof.
    induction e using texpr_ind'; intros b b' id U E.
    - cbn [gen] in E. now apply gen_epsilon_grows in E.
    - cbn [gen] in E. now apply gen_literal_grows in E.
    - rewrite gen_cat_eq in E. destruct (gen_list (gen cs) _ b) as [[b1 ids]|] eqn:El; [|discriminate].
      apply (gen_list_grows _ H) in El; [| exact U]. cbn [tsize]. rewrite <- Nat.add_1_r. eapply grows_trans; [exact El |]. eapply gen_cat_grows; [apply El | exact E].
    - rewrite gen_alt_eq in E. destruct (gen_list (gen cs) _ b) as [[b1 ids]|] eqn:El; [|discriminate].
      apply (gen_list_grows _ H) in El; [| exact U]. cbn [tsize]. rewrite <- Nat.add_1_r. eapply grows_trans; [exact El |]. eapply gen_alt_grows; [apply El | exact E].
    - cbn [gen] in E. destruct (map_get texpr_eqb e (fix_map b)); [injection E as <- <-; now apply grows_refl |].
      destruct (new_type_name _ _ _ _) as [[[x ident] b2]|] eqn:En; [|discriminate]. apply new_type_name_inv in En as (-> & nm & ->). cbv zeta in E.
      set (b3 := push_entry (Entry (TnIdent ident) (DFix None) []) (set_fix_map ((e, length (data b)) :: fix_map (set_name_map nm b)) (set_name_map nm b))) in E.
      destruct (gen cs e _) as [[b4 j]|] eqn:E4; [|discriminate].
      assert (G3 : grows b (set_context (length (data b) :: context b3) b3) 1).
      { eapply grows_push; [| lia | reflexivity]. split; cbn; intros k; intros; (apply def_push in H as [H | [-> H]]; [| discriminate]); [eapply u_lit | eapply u_cat | eapply u_alt | eapply u_box]; eauto. }
      apply IHe in E4; [| apply G3]. destruct E4 as (U4 & L4 & l & D4).
      cbn [data set_context] in E. destruct (nth_error (data b4) j); [|discriminate]. destruct (Nat.ltb _ _) eqn:Elt; [|discriminate]. injection E as <- <-.
      assert (D : data b4 = data b ++ Entry (TnIdent ident) (DFix None) [] :: l) by (rewrite D4; unfold b3; cbn; now rewrite <- app_assoc).
      split; [| split].
      + assert (K : forall i y, def_of (update (length (data b)) (fun en => Entry (en_name en) (DFix (Some j)) [j]) (data b4)) i = Some y -> def_of (data b4) i = Some y \/ exists q, y = DFix q).
        { intros i y Hd. unfold def_of in *. rewrite update_nth in Hd. destruct (Nat.eqb i _); [destruct (nth_error (data b4) i); cbn in Hd; [injection Hd as <-; eauto | discriminate] | auto]. }
        split; cbn; intros i; intros; (apply K in H as [H | [q H]]; [| discriminate]); [eapply u_lit | eapply u_cat | eapply u_alt | eapply u_box]; eauto.
      + cbn in L4 |- *. rewrite update_length. unfold b3 in L4. cbn in L4. rewrite app_length in L4. cbn in L4. lia.
      + cbn. rewrite D, update_app. eauto.
    - cbn [gen] in E. now apply gen_variable_grows in E.
  Qed.
End Distinct.

Theorem generate_distinct cs r b root : generate cs r = Some (b, root) ->
  (forall i j x y, def_of (data b) i = Some x -> def_of (data b) j = Some y -> same_definition x y -> i = j) /\ length (data b) <= tsize r.
Proof. intros E. destruct (gen_grows cs r _ _ _ uniq_default E) as (U & L & _). split; [intros; eapply uniq_distinct; eauto | exact L]. Qed.

Lemma tsize_gram r : grammar_size (gram_of_t r) = tsize r.
Proof. induction r using texpr_ind'; cbn; try reflexivity; [| | congruence]; rewrite map_map; do 2 f_equal; apply map_ext_in; intros y Hy; rewrite Forall_forall in H; auto. Qed.

(** ** Generating again *)
Lemma name_eqb_trans a b c : unraw a -> unraw b -> unraw c -> name_eqb a b = true -> name_eqb b c = true -> name_eqb a c = true.
Proof.
  destruct a as [[i | s] k], b as [[j | u] l], c as [[h | w] q]; cbn; intros Ha Hb Hc; unfold name_eqb; cbn; unfold ident_eqb; rewrite ?Ha, ?Hb, ?Hc; cbn [Bool.eqb andb];
    rewrite !andb_true_iff, !rstr_eqb_eq; intros [H1 H2] [H3 H4]; (split; [congruence | destruct k, l, q; cbn in *; congruence]).
Qed.

Lemma name_eqb_refl n : name_eqb n n = true.
Proof. destruct n as [[[r s p] | s] k]; unfold name_eqb; cbn; [unfold ident_eqb; cbn; rewrite Bool.eqb_reflx |]; rewrite rstr_eqb_refl; now destruct k. Qed.
Lemma texpr_eqb_refl x : texpr_eqb x x = true.
Proof.
  assert (T : forall t, ty_eqb t t = true) by (intros; now apply ty_eqb_eq).
  assert (O : forall o, oname_eqb o o = true) by (intros [n|]; [apply name_eqb_refl | reflexivity]).
  induction x using texpr_ind'; cbn -[oname_eqb ty_eqb rstr_eqb t_name Nat.eqb]; rewrite O, ?T, ?rstr_eqb_refl, ?Nat.eqb_refl; cbn [andb]; try reflexivity; [| | exact IHx].
  - rewrite andb_true_r. induction H as [| y l Hy _ IH]; [reflexivity |]. now rewrite Hy.
  - rewrite andb_true_r. induction H as [| y l Hy _ IH]; [reflexivity |]. now rewrite Hy.
Qed.

Section Again.
  Variable cs : casing.

  Lemma noraw_name e : no_raw e -> match t_name e with Some n => unraw n | None => True end.
  Proof. unfold no_raw. intros H. assert (K : Forall (fun n => unraw n) (match t_name e with Some n => [n] | None => [] end)) by (destruct e; cbn [t_names] in H; now apply Forall_app in H as [H _]). destruct (t_name e); [now inversion K | exact Logic.I]. Qed.
  Lemma noraw_list l : Forall (fun n => unraw n) (flat_map t_names l) -> Forall no_raw l.
  Proof. induction l as [| x l IH]; cbn; [constructor |]. intros H. apply Forall_app in H as [H1 H2]. constructor; auto. Qed.

  Lemma texpr_eqb_trans : forall x y z, no_raw x -> no_raw y -> no_raw z -> texpr_eqb x y = true -> texpr_eqb y z = true -> texpr_eqb x z = true.
  Proof.
    assert (L : forall l, Forall (fun x => forall y z, no_raw x -> no_raw y -> no_raw z -> texpr_eqb x y = true -> texpr_eqb y z = true -> texpr_eqb x z = true) l ->
      forall l' l'', Forall no_raw l -> Forall no_raw l' -> Forall no_raw l'' -> texprs_eqb l l' = true -> texprs_eqb l' l'' = true -> texprs_eqb l l'' = true).
    { induction 1 as [| x l Hx _ IH]; intros [| y l'] [| z l''] S1 S2 S3 H1 H2; cbn in *; try discriminate; [reflexivity |].
      apply andb_true_iff in H1 as [H1 H1'], H2 as [H2 H2']. inversion S1; inversion S2; inversion S3; subst. apply andb_true_iff. split; eauto. }
    intros x. induction x using texpr_ind'; intros y z Sx Sy Sz Hy Hz;
      pose proof (noraw_name _ Sx) as Nx; pose proof (noraw_name _ Sy) as Ny; pose proof (noraw_name _ Sz) as Nz;
      destruct y; destruct z; cbn -[oname_eqb t_name ty_eqb rstr_eqb Nat.eqb] in Hy, Hz |- *; rewrite ?andb_false_r in *; try discriminate;
      apply andb_true_iff in Hy as [Oy Hy], Hz as [Oz Hz]; apply andb_true_iff;
      (split; [revert Oy Oz; destruct (t_name _), (t_name _), (t_name _); cbn; try discriminate; try reflexivity; apply name_eqb_trans; congruence |]).
    - apply ty_eqb_eq in Hy, Hz. apply ty_eqb_eq. congruence.
    - apply andb_true_iff in Hy as [H1 H2], Hz as [H3 H4]. apply rstr_eqb_eq in H1, H3. apply ty_eqb_eq in H2, H4. apply andb_true_iff. split; [apply rstr_eqb_eq | apply ty_eqb_eq]; congruence.
    - apply andb_true_iff in Hy as [H1 H2], Hz as [H3 H4]. apply ty_eqb_eq in H2, H4. apply andb_true_iff. split; [| apply ty_eqb_eq; congruence].
      eapply (L l H); [| | | exact H1 | exact H3]; apply noraw_list; [unfold no_raw in Sx; cbn in Sx | unfold no_raw in Sy; cbn in Sy | unfold no_raw in Sz; cbn in Sz]; [eapply Forall_app, Sx | eapply Forall_app, Sy | eapply Forall_app, Sz].
    - apply andb_true_iff in Hy as [H1 H2], Hz as [H3 H4]. apply ty_eqb_eq in H2, H4. apply andb_true_iff. split; [| apply ty_eqb_eq; congruence].
      eapply (L l H); [| | | exact H1 | exact H3]; apply noraw_list; [unfold no_raw in Sx; cbn in Sx | unfold no_raw in Sy; cbn in Sy | unfold no_raw in Sz; cbn in Sz]; [eapply Forall_app, Sx | eapply Forall_app, Sy | eapply Forall_app, Sz].
    - unfold no_raw in *. cbn [t_names] in *. apply Forall_app in Sx as [_ Sx], Sy as [_ Sy], Sz as [_ Sz]. eauto.
    - apply andb_true_iff in Hy as [H1 H2], Hz as [H3 H4]. apply Nat.eqb_eq in H1, H3. apply ty_eqb_eq in H2, H4. apply andb_true_iff. split; [apply Nat.eqb_eq | apply ty_eqb_eq]; congruence.
  Qed.

  (** The type an expression has if nothing new is needed for it. *)
  Definition lookups (lk : texpr -> option nat) := fix lookups (l : list texpr) : option (list nat) :=
    match l with
    | [] => Some []
    | x :: l' => match lk x, lookups l' with Some i, Some ids => Some (i :: ids) | _, _ => None end
    end.
  Fixpoint lookup (b : bst) (ctx : list nat) (e : texpr) : option nat :=
    match e with
    | TEps _ _ => None
    | TLit _ s _ => map_get rstr_eqb s (lit_map b)
    | TCat _ l _ => match lookups (lookup b ctx) l with Some ids => map_get nats_eqb ids (cat_map b) | None => None end
    | TAlt _ l _ => match lookups (lookup b ctx) l with Some ids => map_get nats_eqb ids (alt_map b) | None => None end
    | TFix _ i => map_get texpr_eqb i (fix_map b)
    | TVar _ i _ => match nth_error ctx i with Some f => map_get Nat.eqb f (var_map b) | None => None end
    end.
  Lemma lookups_gen b l : Forall (fun e => forall id, lookup b (context b) e = Some id -> gen cs e b = Some (b, id)) l ->
    forall ids, lookups (lookup b (context b)) l = Some ids -> gen_list (gen cs) l b = Some (b, ids).
  Proof.
    induction 1 as [| x l Hx _ IH]; cbn [lookups gen_list]; intros ids E; [now injection E as <- |].
    destruct (lookup b (context b) x) as [i|]; [| discriminate]. rewrite (Hx i eq_refl). destruct (lookups _ l) as [ids'|]; [| discriminate]. rewrite (IH ids' eq_refl). now injection E as <-.
  Qed.
  Lemma lookup_gen b e : forall id, lookup b (context b) e = Some id -> gen cs e b = Some (b, id).
  Proof.
    induction e using texpr_ind'; intros id E; cbn [lookup] in E; [discriminate | ..].
    - cbn [gen]. unfold gen_literal. now rewrite E.
    - rewrite gen_cat_eq. destruct (lookups _ _) as [ids|] eqn:El; [| discriminate]. rewrite (lookups_gen b _ H ids El). unfold gen_cat. now rewrite E.
    - rewrite gen_alt_eq. destruct (lookups _ _) as [ids|] eqn:El; [| discriminate]. rewrite (lookups_gen b _ H ids El). unfold gen_alt. now rewrite E.
    - cbn [gen]. now rewrite E.
    - cbn [gen]. unfold gen_variable. destruct (nth_error (context b) i); [| discriminate]. now rewrite E.
  Qed.

  (** What was remembered stays remembered. *)
  Record later (b b' : bst) : Prop := {
    l_lit : forall k v, map_get rstr_eqb k (lit_map b) = Some v -> map_get rstr_eqb k (lit_map b') = Some v;
    l_cat : forall k v, map_get nats_eqb k (cat_map b) = Some v -> map_get nats_eqb k (cat_map b') = Some v;
    l_alt : forall k v, map_get nats_eqb k (alt_map b) = Some v -> map_get nats_eqb k (alt_map b') = Some v;
    l_var : forall k v, map_get Nat.eqb k (var_map b) = Some v -> map_get Nat.eqb k (var_map b') = Some v;
    l_fix : forall k v, no_raw k -> map_get texpr_eqb k (fix_map b) = Some v -> map_get texpr_eqb k (fix_map b') = Some v }.
  Definition keyed (b : bst) : Prop := Forall (fun p => no_raw (fst p)) (fix_map b).
  Lemma later_refl b : later b b.
  Proof. split; auto. Qed.
  Lemma later_trans a b c : later a b -> later b c -> later a c.
  Proof. intros H H'. split; intros; [apply (l_lit _ _ H'), (l_lit _ _ H) | apply (l_cat _ _ H'), (l_cat _ _ H) | apply (l_alt _ _ H'), (l_alt _ _ H) | apply (l_var _ _ H'), (l_var _ _ H) | apply (l_fix _ _ H'), (l_fix _ _ H)]; assumption. Qed.
  Lemma lookups_later (P : texpr -> Prop) lk lk' l ids : Forall (fun e => forall id, P e -> lk e = Some id -> lk' e = Some id) l -> Forall P l -> lookups lk l = Some ids -> lookups lk' l = Some ids.
  Proof.
    intros H. revert ids. induction H as [| x l Hx _ IH]; cbn; intros ids S E; [exact E |]. inversion S; subst. destruct (lk x) as [i|]; [| discriminate]. rewrite (Hx i); auto. destruct (lookups lk l) as [ids'|]; [| discriminate]. now rewrite (IH ids').
  Qed.
  Lemma noraw_parts a l t : no_raw (TCat a l t) -> Forall no_raw l.
  Proof. unfold no_raw. cbn [t_names]. intros H. apply Forall_app in H as [_ H]. now apply noraw_list. Qed.
  Lemma noraw_branches a l t : no_raw (TAlt a l t) -> Forall no_raw l.
  Proof. unfold no_raw. cbn [t_names]. intros H. apply Forall_app in H as [_ H]. now apply noraw_list. Qed.
  Lemma noraw_body a i : no_raw (TFix a i) -> no_raw i.
  Proof. unfold no_raw. cbn [t_names]. intros H. now apply Forall_app in H as [_ H]. Qed.
  Lemma lookup_later b b' ctx e : later b b' -> forall id, no_raw e -> lookup b ctx e = Some id -> lookup b' ctx e = Some id.
  Proof.
    intros L. induction e using texpr_ind'; intros id S E; cbn [lookup] in E |- *; [discriminate | ..].
    - now apply (l_lit _ _ L).
    - destruct (lookups _ _) as [ids|] eqn:El; [| discriminate]. rewrite (lookups_later no_raw _ _ _ ids H (noraw_parts _ _ _ S) El). now apply (l_cat _ _ L).
    - destruct (lookups _ _) as [ids|] eqn:El; [| discriminate]. rewrite (lookups_later no_raw _ _ _ ids H (noraw_branches _ _ _ S) El). now apply (l_alt _ _ L).
    - apply (l_fix _ _ L); [now apply noraw_body in S | exact E].
    - destruct (nth_error ctx i); [| discriminate]. now apply (l_var _ _ L).
  Qed.
  Lemma map_get_cons {K V} (eqb : K -> K -> bool) k k' (v v' : V) m : (eqb k k' = true -> map_get eqb k m = map_get eqb k' m) -> map_get eqb k' m = None ->
    map_get eqb k m = Some v -> map_get eqb k ((k', v') :: m) = Some v.
  Proof. intros H N E. cbn. destruct (eqb k k') eqn:Ek; [specialize (H eq_refl); congruence | exact E]. Qed.
  Lemma texpr_eqb_iff k k' m : keyed m -> no_raw k -> no_raw k' -> texpr_eqb k k' = true -> map_get texpr_eqb k (fix_map m) = map_get texpr_eqb k' (fix_map m).
  Proof.
    unfold keyed. intros H Sk Sk' Ek. induction (fix_map m) as [| [x v] l IH]; [reflexivity |]. inversion H as [| q l0 Sx Hl]; subst. cbn. cbn in Sx.
    destruct (texpr_eqb k x) eqn:E1, (texpr_eqb k' x) eqn:E2; auto.
    - rewrite texpr_eqb_sym in Ek. now rewrite (texpr_eqb_trans _ _ _ Sk' Sk Sx Ek E1) in E2.
    - now rewrite (texpr_eqb_trans _ _ _ Sk Sk' Sx Ek E2) in E1.
  Qed.

  Definition again (b b' : bst) : Prop := later b b' /\ keyed b' /\ context b' = context b.
  Lemma again_refl b : keyed b -> again b b.
  Proof. intros K. split; [apply later_refl | auto]. Qed.
  Lemma again_trans a b c : again a b -> again b c -> again a c.
  Proof. intros (L & _ & C) (L' & K & C'). split; [eapply later_trans; eauto | split; [exact K | congruence]]. Qed.
  Lemma rstr_get k k' {V} (m : list (rstr * V)) : rstr_eqb k k' = true -> map_get rstr_eqb k m = map_get rstr_eqb k' m.
  Proof. intros E. apply rstr_eqb_eq in E. now subst. Qed.
  Lemma nats_get k k' {V} (m : list (list nat * V)) : nats_eqb k k' = true -> map_get nats_eqb k m = map_get nats_eqb k' m.
  Proof. intros E. apply nats_eqb_eq in E. now subst. Qed.

  Definition aspec (e : texpr) : Prop := forall b b' id, keyed b -> no_raw e -> gen cs e b = Some (b', id) ->
    again b b' /\ (no_epsilon e -> lookup b' (context b) e = Some id).
  Lemma gen_list_again l : Forall aspec l -> forall b b' ids, keyed b -> Forall no_raw l -> gen_list (gen cs) l b = Some (b', ids) ->
    again b b' /\ ((fix go l := match l with [] => True | x :: l' => no_epsilon x /\ go l' end) l -> lookups (lookup b' (context b)) l = Some ids).
  Proof.
    induction 1 as [| e l He _ IH]; intros b b' ids K S E; cbn [gen_list] in E; [injection E as <- <-; split; [now apply again_refl | reflexivity] |].
    destruct (gen cs e b) as [[b1 id]|] eqn:E1; [|discriminate]. destruct (gen_list (gen cs) l b1) as [[b2 ids2]|] eqn:E2; [|discriminate]. injection E as <- <-. inversion S as [| q w Se Sl]; subst.
    destruct (He _ _ _ K Se E1) as [A1 L1]. destruct (IH _ _ _ (proj1 (proj2 A1)) Sl E2) as [A2 L2]. split; [eapply again_trans; eauto |].
    intros [N1 N2]. cbn [lookups]. rewrite (lookup_later b1 b2 (context b) e (proj1 A2) id Se (L1 N1)). destruct A1 as (_ & _ & C1). rewrite C1 in L2. now rewrite (L2 N2).
  Qed.
  Lemma gen_again e : aspec e.
  Proof.
    induction e using texpr_ind'; intros b b' id K S E.
    - cbn [gen] in E. unfold gen_epsilon in E. split; [| intros []]. destruct (eps_id b); injection E as <- <-; [now apply again_refl |]. split; [split; auto | split; [exact K | reflexivity]].
    - cbn [gen lookup] in *. unfold gen_literal in E. destruct (map_get rstr_eqb s (lit_map b)) eqn:Eg; [injection E as <- <-; split; [now apply again_refl | auto] |].
      destruct (new_type_name _ _ _ _) as [[[x ident] b1]|] eqn:En; [|discriminate]. apply new_type_name_inv in En as (-> & nm & ->).
      assert (Q : lit_map b' = (s, id) :: lit_map b /\ cat_map b' = cat_map b /\ alt_map b' = alt_map b /\ var_map b' = var_map b /\ fix_map b' = fix_map b /\ context b' = context b)
        by (destruct s as [|c [|c' s]]; injection E as <- <-; cbn; auto 10).
      destruct Q as (Q1 & Q2 & Q3 & Q4 & Q5 & Q6). split; [split; [split | split; [unfold keyed; now rewrite Q5 | exact Q6]]; intros | intros _]; rewrite ?Q1, ?Q2, ?Q3, ?Q4, ?Q5; auto.
      + apply map_get_cons; auto. apply rstr_get.
      + cbn. now rewrite rstr_eqb_refl.
    - rewrite gen_cat_eq in E. destruct (gen_list (gen cs) _ b) as [[b1 ids]|] eqn:El; [|discriminate].
      destruct (gen_list_again _ H _ _ _ K (noraw_parts _ _ _ S) El) as [A L]. cbn [lookup no_epsilon].
      assert (G : again b1 b' /\ map_get nats_eqb ids (cat_map b') = Some id).
      { unfold gen_cat in E. destruct (map_get nats_eqb ids (cat_map b1)) eqn:Eg; [injection E as <- <-; split; [apply again_refl, A | exact Eg] |].
        destruct (new_type_name _ _ _ _) as [[[x ident] b2]|] eqn:En; [|discriminate]. apply new_type_name_inv in En as (-> & nm & ->).
        destruct (ids_ok _ _); [|discriminate]. destruct (name_parts _ _ _ _ _) as [parts|]; [|discriminate]. injection E as <- <-. destruct A as (_ & KA & _).
        split; [split; [split | split; [exact KA | reflexivity]]; cbn [lit_map cat_map alt_map var_map fix_map push_entry set_data set_cat_map set_name_map]; auto |].
        - intros k v Hk. apply map_get_cons; auto. apply nats_get.
        - cbn. now rewrite nats_eqb_refl. }
      destruct G as [G1 G2]. split; [eapply again_trans; eauto |]. intros N. 
      rewrite (lookups_later no_raw (lookup b1 (context b)) (lookup b' (context b)) l ids); [exact G2 | | exact (noraw_parts _ _ _ S) | exact (L N)].
      apply Forall_forall. intros y _ i Sy. apply lookup_later; [exact (proj1 G1) | exact Sy].
    - rewrite gen_alt_eq in E. destruct (gen_list (gen cs) _ b) as [[b1 ids]|] eqn:El; [|discriminate].
      destruct (gen_list_again _ H _ _ _ K (noraw_branches _ _ _ S) El) as [A L]. cbn [lookup no_epsilon].
      assert (G : again b1 b' /\ map_get nats_eqb ids (alt_map b') = Some id).
      { unfold gen_alt in E. destruct (map_get nats_eqb ids (alt_map b1)) eqn:Eg; [injection E as <- <-; split; [apply again_refl, A | exact Eg] |].
        destruct (new_type_name _ _ _ _) as [[[x ident] b2]|] eqn:En; [|discriminate]. apply new_type_name_inv in En as (-> & nm & ->).
        destruct (ids_ok _ _); [|discriminate]. destruct (name_parts _ _ _ _ _) as [parts|]; [|discriminate]. cbv zeta in E. destruct A as (_ & KA & _).
        assert (Q : alt_map b' = (ids, id) :: alt_map b1 /\ cat_map b' = cat_map b1 /\ lit_map b' = lit_map b1 /\ var_map b' = var_map b1 /\ fix_map b' = fix_map b1 /\ context b' = context b1)
          by (destruct (forallb _ _) in E; injection E as <- <-; cbn; auto 10).
        destruct Q as (Q1 & Q2 & Q3 & Q4 & Q5 & Q6).
        split; [split; [split | split; [unfold keyed; now rewrite Q5 | exact Q6]]; intros |]; rewrite ?Q1, ?Q2, ?Q3, ?Q4, ?Q5; auto.
        - apply map_get_cons; auto. apply nats_get.
        - cbn. now rewrite nats_eqb_refl. }
      destruct G as [G1 G2]. split; [eapply again_trans; eauto |]. intros N. 
      rewrite (lookups_later no_raw (lookup b1 (context b)) (lookup b' (context b)) l ids); [exact G2 | | exact (noraw_branches _ _ _ S) | exact (L N)].
      apply Forall_forall. intros y _ i Sy. apply lookup_later; [exact (proj1 G1) | exact Sy].
    - cbn [gen lookup] in *. destruct (map_get texpr_eqb e (fix_map b)) eqn:Eg; [injection E as <- <-; split; [now apply again_refl | auto] |].
      destruct (new_type_name _ _ _ _) as [[[x ident] b2]|] eqn:En; [|discriminate]. apply new_type_name_inv in En as (-> & nm & ->). cbv zeta in E.
      destruct (gen cs e _) as [[b4 j]|] eqn:E4; [|discriminate].
      destruct (nth_error _ j); [|discriminate]. destruct (Nat.ltb _ _) eqn:Elt; [|discriminate]. injection E as <- <-.
      pose proof (noraw_body _ _ S) as Se.
      apply IHe in E4; [| constructor; [exact Se | exact K] | exact Se]. destruct E4 as [(L4 & K4 & C4) _].
      assert (L : later b b4).
      { eapply later_trans; [| exact L4]. split; cbn [lit_map cat_map alt_map var_map fix_map push_entry set_data set_fix_map set_context set_name_map]; auto.
        intros k v Sk Hk. apply map_get_cons; auto. now apply texpr_eqb_iff. }
      split; [split; [split; intros; apply L; auto | split; [exact K4 |]] |].
      + cbn [context set_data set_context]. now rewrite C4.
      + intros _. cbn [fix_map set_data set_context]. apply (l_fix _ _ L4); [exact Se |]. cbn. now rewrite texpr_eqb_refl.
    - cbn [gen lookup] in *. unfold gen_variable in E. destruct (nth_error (context b) i) as [f|]; [|discriminate].
      destruct (map_get Nat.eqb f (var_map b)) eqn:Eg; [injection E as <- <-; split; [now apply again_refl | auto] |].
      destruct (nth_error (data b) f); [|discriminate]. injection E as <- <-.
      split; [split; [split | split; [exact K | reflexivity]]; cbn [lit_map cat_map alt_map var_map fix_map push_entry set_data set_var_map]; auto |].
      + intros k v Hk. apply map_get_cons; auto. intros Ek. apply Nat.eqb_eq in Ek. now subst.
      + intros _. cbn. now rewrite Nat.eqb_refl.
  Qed.
End Again.

Section Equal.
  Lemma lookups_equal (lk : texpr -> option nat) l : Forall (fun x => forall y, no_raw x -> no_raw y -> texpr_eqb x y = true -> lk x = lk y) l ->
    forall l', Forall no_raw l -> Forall no_raw l' -> texprs_eqb l l' = true -> lookups lk l = lookups lk l'.
  Proof.
    induction 1 as [| x l Hx _ IH]; intros [| y l'] S S' E; cbn in E; try discriminate; [reflexivity |]. apply andb_true_iff in E as [E1 E2]. inversion S; inversion S'; subst. cbn. rewrite (Hx y), (IH l'); auto.
  Qed.
  Lemma lookup_equal b ctx x : keyed b -> forall y, no_raw x -> no_raw y -> texpr_eqb x y = true -> lookup b ctx x = lookup b ctx y.
  Proof.
    intros K. induction x using texpr_ind'; intros y Sx Sy E; cbn in E; apply andb_true_iff in E as [_ E]; destruct y; try discriminate; cbn [lookup].
    - reflexivity.
    - apply andb_true_iff in E as [E _]. apply rstr_eqb_eq in E. now subst.
    - apply andb_true_iff in E as [E _]. rewrite (lookups_equal _ _ H terms); auto; eapply noraw_parts; eauto.
    - apply andb_true_iff in E as [E _]. rewrite (lookups_equal _ _ H terms); auto; eapply noraw_branches; eauto.
    - apply texpr_eqb_iff; auto; eapply noraw_body; eauto.
    - apply andb_true_iff in E as [E _]. apply Nat.eqb_eq in E. now subst.
  Qed.
  Lemma gen_list_nth cs l : Forall no_raw l -> forall b b' ids, keyed b -> gen_list (gen cs) l b = Some (b', ids) ->
    length ids = length l /\ forall k x id, nth_error l k = Some x -> nth_error ids k = Some id -> no_epsilon x -> lookup b' (context b) x = Some id.
  Proof.
    induction 1 as [| e l Se Sl IH]; intros b b' ids K E; cbn [gen_list] in E; [injection E as <- <-; split; [reflexivity | intros [|k]; discriminate] |].
    destruct (gen cs e b) as [[b1 id1]|] eqn:E1; [|discriminate]. destruct (gen_list (gen cs) l b1) as [[b2 ids2]|] eqn:E2; [|discriminate]. injection E as <- <-.
    destruct (gen_again cs e _ _ _ K Se E1) as [(L1 & K1 & C1) H1]. destruct (IH _ _ _ K1 E2) as [Hl H2].
    destruct (gen_list_again cs l) with (b := b1) (b' := b2) (ids := ids2) as [(L2 & K2 & C2) _]; auto. { apply Forall_forall. intros y _. apply gen_again. }
    split; [cbn; now rewrite Hl |]. intros [|k] x id Hx Hi N; cbn in Hx, Hi.
    - injection Hx as <-. injection Hi as <-. eapply lookup_later; [exact L2 | exact Se | auto].
    - rewrite <- C1. eauto.
  Qed.
  Theorem generate_again cs l b ids k x x' id : Forall no_raw l -> no_raw x' -> gen_list (gen cs) l bst_default = Some (b, ids) ->
    nth_error l k = Some x -> nth_error ids k = Some id -> no_epsilon x -> texpr_eqb x x' = true -> gen cs x' b = Some (b, id).
  Proof.
    intros S S' E Hx Hi N Eq. assert (K : keyed bst_default) by constructor.
    destruct (gen_list_again cs l) with (b := bst_default) (b' := b) (ids := ids) as [(L & Kb & C) _]; auto. { apply Forall_forall. intros y _. apply gen_again. }
    apply lookup_gen. rewrite <- (lookup_equal b _ x Kb x'), C; auto. { eapply (proj2 (gen_list_nth cs l S _ _ _ K E)); eauto. }
    rewrite Forall_forall in S. apply S. now apply nth_error_In in Hx.
  Qed.
  Theorem generate_parts cs l b ids k k' x x' : Forall no_raw l -> gen_list (gen cs) l bst_default = Some (b, ids) ->
    nth_error l k = Some x -> nth_error l k' = Some x' -> no_epsilon x -> no_epsilon x' -> texpr_eqb x x' = true -> nth_error ids k = nth_error ids k'.
  Proof.
    intros S E Hx Hx' N N' Eq. assert (K : keyed bst_default) by constructor.
    destruct (gen_list_nth cs l S _ _ _ K E) as [Hl H].
    destruct (gen_list_again cs l) with (b := bst_default) (b' := b) (ids := ids) as [(L & Kb & C) _]; auto. { apply Forall_forall. intros y _. apply gen_again. }
    assert (G : forall k x, nth_error l k = Some x -> exists i, nth_error ids k = Some i).
    { intros q y Hq. destruct (nth_error ids q) eqn:Ei; [eauto |]. apply nth_error_None in Ei. rewrite Hl in Ei. apply nth_error_None in Ei. congruence. }
    destruct (G _ _ Hx) as [i Hi], (G _ _ Hx') as [j Hj]. rewrite Hi, Hj. rewrite Forall_forall in S.
    rewrite <- (H _ _ _ Hx Hi N), <- (H _ _ _ Hx' Hj N'). apply lookup_equal; auto; apply S; eapply nth_error_In; eauto.
  Qed.
End Equal.
