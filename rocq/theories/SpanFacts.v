(** * SpanFacts: reduction, inference and code generation commute with a
    change of names and positions. *)
From Verif Require Export SpecSame InferFacts GenFacts ReduceFacts ShareFacts.
From Coq Require Import List Lia.

Definition both {A B S T} (f : A -> B) (g : S -> T) (x : A * S) : B * T := (f (fst x), g (snd x)).

Section Map.
  Context (f : name -> name) (Hk : forall n, n_kind (f n) = n_kind n).
  Notation mapn := (map_expr f).
  Notation mapo := (option_map f).
  Definition map_part (y : span * nexpr) : span * nexpr := (call_site, mapn (snd y)).
  Definition map_st (st : subst_st) : subst_st := Subst (s_index st) (mapn (s_expr st)).

  Lemma map_e_ann e : e_ann (mapn e) = map_ann f (e_ann e).
  Proof. now destruct e. Qed.
  Lemma map_e_name e : e_name (mapn e) = mapo (e_name e).
  Proof. unfold e_name. now rewrite map_e_ann. Qed.
  Lemma map_set_ann a e : mapn (set_ann a e) = set_ann (map_ann f a) (mapn e).
  Proof. now destruct e. Qed.
  Lemma map_set_ann2 nm sp e : mapn (set_ann (Ann nm sp) e) = set_ann (Ann (mapo nm) call_site) (mapn e).
  Proof. apply map_set_ann. Qed.
  Lemma map_set_name n e : mapn (set_name n e) = set_name (mapo n) (mapn e).
  Proof. unfold set_name. rewrite map_set_ann. f_equal. unfold map_ann, e_span. cbn. now rewrite map_e_ann. Qed.
  Lemma map_merge a b : mapo (merge a b) = merge (mapo a) (mapo b).
  Proof. destruct a as [a |], b as [b |]; cbn; try reflexivity. rewrite !Hk. now destruct (kind_ge _ _). Qed.
  Lemma map_merge_all l : mapo (merge_all l) = merge_all (map mapo l).
  Proof.
    unfold merge_all. change None with (mapo None) at 2. generalize (@None name). induction l as [| x l IH]; intros a; cbn [map fold_left]; [reflexivity |]. now rewrite IH, map_merge.
  Qed.

  (** ** Reduction *)
  Lemma map_opt_map {A B} (h : A -> option B) (k : A -> A) (m : B -> B) l : Forall (fun x => h (k x) = option_map m (h x)) l -> map_opt h (map k l) = option_map (map m) (map_opt h l).
  Proof. induction 1 as [| x l Hx _ IH]; cbn; [reflexivity |]. rewrite Hx. destruct (h x); cbn; [| reflexivity]. rewrite IH. now destruct (map_opt h l). Qed.
  Lemma map_rename dir n e : forall d, rename_vars dir n d (mapn e) = option_map mapn (rename_vars dir n d e).
  Proof.
    induction e using nexpr_ind'; intros d; cbn [rename_vars map_expr]; try reflexivity.
    - rewrite IHe. destruct (rename_vars dir n d e); cbn [option_map]; [| reflexivity].
      rewrite (map_opt_map (fun x => option_map (pair (fst x)) (rename_vars dir n d (snd x))) map_part map_part); [now destruct (map_opt _ r) |].
      eapply Forall_impl; [| exact H]. cbn. intros [p x] Hx. cbn in *. rewrite Hx. now destruct (rename_vars _ _ _ x).
    - rewrite IHe. destruct (rename_vars dir n d e); cbn [option_map]; [| reflexivity].
      rewrite (map_opt_map (fun x => option_map (pair (fst x)) (rename_vars dir n d (snd x))) map_part map_part); [now destruct (map_opt _ r) |].
      eapply Forall_impl; [| exact H]. cbn. intros [p x] Hx. cbn in *. rewrite Hx. now destruct (rename_vars _ _ _ x).
    - rewrite IHe. now destruct (rename_vars dir n d e).
    - now destruct (rename_index dir n d i).
    - rewrite IHe. destruct (rename_vars dir n d e); cbn [option_map]; [| reflexivity]. rewrite (map_opt_map _ _ mapn); [now destruct (map_opt _ l) |]. eapply Forall_impl; [| exact H]. auto.
    - rewrite map_length, IHe. now destruct (rename_vars dir n _ e).
    - rewrite IHe1, IHe2. destruct (rename_vars dir n d e1), (rename_vars dir n (d + 1) e2); reflexivity.
  Qed.
  Lemma fold_list_cons {A S} (h : A -> S -> option (A * S)) x l st : fold_list h (x :: l) st =
    match h x st with None => None | Some (y, st1) => match fold_list h l st1 with None => None | Some (ys, st2) => Some (y :: ys, st2) end end.
  Proof. reflexivity. Qed.
  Lemma fold_list_map {A S} (h : A -> S -> option (A * S)) (k : A -> A) (m : S -> S) l : Forall (fun x => forall st, h (k x) (m st) = option_map (both k m) (h x st)) l ->
    forall st, fold_list h (map k l) (m st) = option_map (both (map k) m) (fold_list h l st).
  Proof.
    induction 1 as [| x l Hx _ IH]; intros st; cbn [map]; [reflexivity |]. rewrite !fold_list_cons, Hx. destruct (h x st) as [[y st1] |]; [| reflexivity]. unfold both at 1. cbn [option_map fst snd].
    rewrite IH. now destruct (fold_list h l st1) as [[? ?] |].
  Qed.
  Lemma map_with_args n (k k' : subst_st -> option (nexpr * subst_st)) : (forall st, k' (map_st st) = option_map (both mapn map_st) (k st)) ->
    forall st, with_args n k' (map_st st) = option_map (both mapn map_st) (with_args n k st).
  Proof.
    intros H st. unfold with_args. cbn [map_st s_expr s_index]. rewrite map_rename. destruct (rename_vars Deepen n 0 (s_expr st)) as [x |]; [| reflexivity]. cbn [option_map].
    specialize (H (Subst (s_index st + n) x)). unfold map_st at 1 in H. cbn [s_index s_expr] in H. rewrite H. destruct (k _) as [[o st'] |]; [| reflexivity]. cbn [option_map both fst snd].
    unfold both. cbn [fst snd map_st s_expr s_index]. rewrite map_rename. destruct (rename_vars Shallow n 0 (s_expr st')); [| reflexivity]. cbn [option_map]. now destruct (Nat.leb _ _).
  Qed.
  Lemma map_substitute e : forall st, substitute (mapn e) (map_st st) = option_map (both mapn map_st) (substitute e st).
  Proof.
    induction e using nexpr_ind'; intros st; cbn [substitute map_expr]; try reflexivity.
    - rewrite IHe. destruct (substitute e st) as [[e' st1] |]; [| reflexivity]. unfold both at 1. cbn [option_map fst snd].
      change (map (fun y => (call_site, mapn (snd y))) r) with (map map_part r).
      rewrite (fold_list_map _ map_part map_st); [now destruct (fold_list _ r st1) as [[? ?] |] |].
      eapply Forall_impl; [| exact H]. cbn. intros [p x] Hx st'. cbn [fst snd map_part] in *. unfold map_part. cbn [fst snd]. rewrite Hx. now destruct (substitute x st') as [[? ?] |].
    - rewrite IHe. destruct (substitute e st) as [[e' st1] |]; [| reflexivity]. unfold both at 1. cbn [option_map fst snd].
      change (map (fun y => (call_site, mapn (snd y))) r) with (map map_part r).
      rewrite (fold_list_map _ map_part map_st); [now destruct (fold_list _ r st1) as [[? ?] |] |].
      eapply Forall_impl; [| exact H]. cbn. intros [p x] Hx st'. cbn [fst snd map_part] in *. unfold map_part. cbn [fst snd]. rewrite Hx. now destruct (substitute x st') as [[? ?] |].
    - rewrite IHe. now destruct (substitute e st) as [[e' st1] |].
    - cbn [map_st s_index s_expr]. destruct (Nat.eqb _ _); [| reflexivity]. unfold both. cbn. now rewrite map_set_name, map_merge, map_e_name.
    - rewrite IHe. destruct (substitute e st) as [[e' st1] |]; [| reflexivity]. unfold both at 1. cbn [option_map fst snd].
      rewrite (fold_list_map _ mapn map_st); [now destruct (fold_list _ l st1) as [[? ?] |] |]. exact H.
    - rewrite map_length, (map_with_args _ (substitute e)) by exact IHe. now destruct (with_args _ (substitute e) st) as [[? ?] |].
    - rewrite IHe1. destruct (substitute e1 st) as [[x' st1] |]; [| reflexivity]. unfold both at 1. cbn [option_map fst snd].
      rewrite (map_with_args _ (substitute e2)) by exact IHe2. now destruct (with_args _ (substitute e2) st1) as [[? ?] |].
  Qed.
  Definition map_arg (x : (nat * nexpr) * name) : (nat * nexpr) * name := ((fst (fst x), mapn (snd (fst x))), f (snd x)).
  Lemma map_bind_args l : forall out, bind_args (map map_arg l) (mapn out) = option_map mapn (bind_args l out).
  Proof.
    induction l as [| [[i arg] nm] l IH]; intros out; cbn [map map_arg bind_args fst snd]; [reflexivity |]. unfold map_arg at 1. cbn [fst snd bind_args].
    change (Some (f nm)) with (mapo (Some nm)). rewrite map_e_name, <- map_merge, <- map_set_name, map_rename. destruct (rename_vars _ _ _ _) as [arg' |]; [| reflexivity]. cbn [option_map].
    change (Subst 0 (mapn arg')) with (map_st (Subst 0 arg')). rewrite map_substitute. destruct (substitute out _) as [[o ?] |]; [| reflexivity]. unfold both. cbn [option_map fst snd]. apply IH.
  Qed.
  Lemma map_combine args : forall ns k, map map_arg (combine (combine (seq k (length args)) args) ns) = combine (combine (seq k (length args)) (map mapn args)) (map f ns).
  Proof. induction args as [| x args IH]; intros [| n ns] k; cbn; try reflexivity. f_equal. apply IH. Qed.
  Notation mapr := (res_both mapn (map_red_error f)).
  Lemma reduce_list_map n r : (forall x, reduce n (mapn x) = mapr (reduce n x)) ->
    reduce_list (fun x => res_map (pair (fst x)) (reduce n (snd x))) (map map_part r) = res_both (map map_part) (map_red_error f) (reduce_list (fun x => res_map (pair (fst x)) (reduce n (snd x))) r).
  Proof.
    intros IH. induction r as [| [p x] r IHr]; cbn [map reduce_list]; [reflexivity |]. change (snd (map_part (p, x))) with (mapn x). change (fst (map_part (p, x))) with call_site. rewrite IH, IHr. cbn [fst snd]. destruct (reduce n x); try reflexivity. cbn [res_both res_map]. now destruct (reduce_list _ r).
  Qed.
  Theorem map_reduce n : forall e, reduce n (mapn e) = mapr (reduce n e).
  Proof.
    induction n as [| n IH]; intros e; [reflexivity |]. destruct e as [a | a s | a x r | a x r | a i | a i | a o l | a ns i | a nm x y]; try reflexivity; cbn [map_expr].
    - cbn [reduce]. rewrite IH. change (map (fun y => (call_site, mapn (snd y))) r) with (map map_part r). destruct (reduce n x) as [x' | | |]; try reflexivity. cbn [res_both res_bind]. rewrite (reduce_list_map n r IH). now destruct (reduce_list _ r).
    - cbn [reduce]. rewrite IH. change (map (fun y => (call_site, mapn (snd y))) r) with (map map_part r). destruct (reduce n x) as [x' | | |]; try reflexivity. cbn [res_both res_bind]. rewrite (reduce_list_map n r IH). now destruct (reduce_list _ r).
    - cbn [reduce]. rewrite IH. destruct (reduce n i) as [i' | | |]; try reflexivity. cbn [res_both res_bind]. destruct i' as [b | b s | b y r | b y r | b j | b j | b o l | b ns j | b nm y z]; try reflexivity. cbn [map_expr]. rewrite IH. now destruct (reduce n j).
    - rewrite !reduce_call. rewrite IH. destruct (reduce n o) as [i' | | |]; try reflexivity. cbn [res_both res_bind]. destruct i' as [b | b s | b y r | b y r | b j | b j | b o' l' | b ns j | b nm y z]; try reflexivity. cbn [map_expr]. rewrite !map_length.
      destruct (Nat.eqb _ _); [| reflexivity]. rewrite <- map_combine, <- map_rev, map_bind_args. destruct (bind_args _ j) as [out |]; [| reflexivity]. cbn [option_map]. rewrite IH. destruct (reduce n out) as [out' | | |]; try reflexivity.
      cbn [res_both res_map]. rewrite map_set_ann2, map_merge_all, map_e_name. reflexivity.
    - rewrite !reduce_let. change (Subst 0 (mapn x)) with (map_st (Subst 0 x)). rewrite map_substitute. destruct (substitute y _) as [[out ?] |]; [| reflexivity]. unfold both. cbn [option_map fst snd]. rewrite IH. destruct (reduce n out) as [out' | | |]; try reflexivity.
      cbn [res_both res_map]. rewrite map_set_ann2, map_merge, map_e_name. reflexivity.
  Qed.

  (** ** Inference *)
  Notation mapt := (map_texpr f).
  Lemma map_get_type e : get_type (mapt e) = get_type e.
  Proof. induction e using texpr_ind'; cbn; auto. Qed.
  Notation mapi := (res_both mapt (map_type_error f)).
  Notation mapl := (res_both (fun x : list texpr * ty => (map mapt (fst x), snd x)) (map_type_error f)).
  Lemma seq_go_map inf inf' l : Forall (fun x => inf' (mapn (snd x)) = mapi (inf (snd x))) l -> forall t, seq_go inf' t (map map_part l) = mapl (seq_go inf t l).
  Proof.
    induction 1 as [| [p e] l He _ IH]; intros t; cbn [map seq_go]; [reflexivity |]. cbn [snd] in He. unfold map_part at 1. cbn [snd seq_go]. rewrite He. destruct (inf e) as [r | | |]; try reflexivity. cbn [res_both]. rewrite map_get_type.
    destruct (cset_disjoint _ _); [| reflexivity]. fold (seq_go inf'). fold (seq_go inf). rewrite IH. now destruct (seq_go inf _ l) as [[? ?] | | |].
  Qed.
  Lemma alt_go_map inf inf' l : Forall (fun x => inf' (mapn (snd x)) = mapi (inf (snd x))) l -> forall t, alt_go inf' t (map map_part l) = mapl (alt_go inf t l).
  Proof.
    induction 1 as [| [p e] l He _ IH]; intros t; cbn [map alt_go]; [reflexivity |]. cbn [snd] in He. unfold map_part at 1. cbn [snd alt_go]. rewrite He. destruct (inf e) as [r | | |]; try reflexivity. cbn [res_both]. rewrite map_get_type.
    destruct (_ && _); [reflexivity |]. destruct (cset_disjoint _ _); [| reflexivity]. fold (alt_go inf'). fold (alt_go inf). rewrite IH. now destruct (alt_go inf _ l) as [[? ?] | | |].
  Qed.
  Lemma fix_loop_map step step' n : (forall t, step' t = mapi (step t)) -> forall t, fix_loop step' n t = mapi (fix_loop step n t).
  Proof. intros H. induction n as [| n IH]; intros t; cbn [fix_loop]; [reflexivity |]. rewrite H. destruct (step t) as [r | | |]; try reflexivity. cbn [res_both]. rewrite map_get_type. now destruct (ty_eqb _ _). Qed.
  Theorem map_infer e : forall fuel nm c, infer fuel (mapo nm) c (mapn e) = mapi (infer fuel nm c e).
  Proof.
    induction e using nexpr_ind_fix; intros fuel nm c; cbn [map_expr]; try reflexivity.
    - rewrite !infer_cat, map_e_name, IHe. destruct (infer fuel (e_name e) c e) as [x | | |]; try reflexivity. cbn [res_both]. rewrite map_get_type. destruct (nullable _); [now destruct r as [| [? ?] ?] |].
      change (map (fun y => (call_site, mapn (snd y))) r) with (map map_part r). rewrite (seq_go_map (fun e => infer fuel (e_name e) (push_unguard c) e)); [now destruct (seq_go _ _ r) as [[? ?] | | |] |].
      eapply Forall_impl; [| exact H]. cbn. intros y Hy. now rewrite map_e_name.
    - rewrite !infer_alt, map_e_name, IHe. destruct (infer fuel (e_name e) c e) as [x | | |]; try reflexivity. cbn [res_both]. rewrite map_get_type.
      change (map (fun y => (call_site, mapn (snd y))) r) with (map map_part r). rewrite (alt_go_map (fun e => infer fuel (e_name e) c e)); [now destruct (alt_go _ _ r) as [[? ?] | | |] |].
      eapply Forall_impl; [| exact H]. cbn. intros y Hy. now rewrite map_e_name.
    - rewrite !infer_fix. rewrite (fix_loop_map (fun last => infer fuel (merge_all [a_name ai; e_name e; nm]) (push_var last c) e)); [now destruct (fix_loop _ fuel ty_default) |]. intros t. rewrite <- IHe, map_merge_all, map_e_name. reflexivity.
    - rewrite !infer_fix. destruct e; try reflexivity. exfalso. eapply H; reflexivity.
    - cbn. now destruct (get_variable_type c i).
  Qed.
  Lemma map_lit_chars e : lit_chars (mapn e) = lit_chars e.
  Proof.
    induction e using nexpr_ind'; cbn [map_expr lit_chars]; auto.
    - rewrite IHe. f_equal. induction H as [| x r Hx _ IH]; cbn; [reflexivity | now rewrite Hx, IH].
    - rewrite IHe. f_equal. induction H as [| x r Hx _ IH]; cbn; [reflexivity | now rewrite Hx, IH].
    - rewrite IHe. f_equal. induction H as [| x r Hx _ IH]; cbn; [reflexivity | now rewrite Hx, IH].
    - now rewrite IHe1, IHe2.
  Qed.
  Corollary map_typecheck e : typecheck (mapn e) = mapi (typecheck e).
  Proof. unfold typecheck, infer_fuel. now rewrite map_lit_chars, map_e_name, map_infer. Qed.

  (** ** Code generation *)
  Context (P : name -> Prop) (Ht : forall n, name_text (f n) = name_text n).
  Context (Heq : forall a b, P a -> P b -> name_eqb (f a) (f b) = name_eqb a b).
  Definition key_ok (e : texpr) : Prop := Forall P (t_names e).
  Lemma key_name e : key_ok e -> match t_name e with Some n => P n | None => True end.
  Proof. unfold key_ok, t_name. destruct e; cbn; unfold t_name; cbn; destruct (a_name a); auto; intros H; now inversion H. Qed.
  Lemma key_cat a l t : key_ok (TCat a l t) -> Forall key_ok l.
  Proof. unfold key_ok. cbn [t_names]. intros H. apply Forall_app in H as [_ H]. now apply Forall_flat_map in H. Qed.
  Lemma key_alt a l t : key_ok (TAlt a l t) -> Forall key_ok l.
  Proof. unfold key_ok. cbn [t_names]. intros H. apply Forall_app in H as [_ H]. now apply Forall_flat_map in H. Qed.
  Lemma key_fix a i : key_ok (TFix a i) -> key_ok i.
  Proof. unfold key_ok. cbn [t_names]. intros H. now apply Forall_app in H as [_ H]. Qed.
  Lemma map_t_name e : t_name (mapt e) = mapo (t_name e).
  Proof. now destruct e. Qed.
  Lemma map_oname_eqb x y : key_ok x -> key_ok y -> oname_eqb (t_name (mapt x)) (t_name (mapt y)) = oname_eqb (t_name x) (t_name y).
  Proof. intros Hx Hy. apply key_name in Hx, Hy. rewrite !map_t_name. destruct (t_name x), (t_name y); cbn; auto. Qed.
  Lemma map_texpr_eqb x : forall y, key_ok x -> key_ok y -> texpr_eqb (mapt x) (mapt y) = texpr_eqb x y.
  Proof.
    induction x using texpr_ind'; intros y Hx Hy; pose proof (map_oname_eqb _ _ Hx Hy) as Ho; destruct y as [b t' | b s' t' | b l' t' | b l' t' | b i' | b i' t']; cbn [map_texpr texpr_eqb t_name t_ann] in *; unfold t_name in *; cbn [map_texpr t_ann] in *; rewrite Ho; try reflexivity.
    - f_equal. f_equal. apply key_cat in Hx, Hy. clear - H Hx Hy. revert l' Hy. induction H as [| x l H0 _ IH]; intros [| y l'] Hy; try reflexivity. inversion Hx; subst. inversion Hy; subst. cbn [map]. f_equal; auto.
    - f_equal. f_equal. apply key_alt in Hx, Hy. clear - H Hx Hy. revert l' Hy. induction H as [| x l H0 _ IH]; intros [| y l'] Hy; try reflexivity. inversion Hx; subst. inversion Hy; subst. cbn [map]. f_equal; auto.
    - f_equal. apply IHx; eapply key_fix; eassumption.
  Qed.
  Definition map_keys (m : list (texpr * nat)) : list (texpr * nat) := map (fun kv => (mapt (fst kv), snd kv)) m.
  Definition map_b (b : bst) : bst := set_fix_map (map_keys (fix_map b)) b.
  Definition keys_ok (b : bst) : Prop := Forall (fun kv => key_ok (fst kv)) (fix_map b).
  Notation mapg := (option_map (fun x : bst * nat => (map_b (fst x), snd x))).
  Lemma map_get_keys e m : key_ok e -> Forall (fun kv => key_ok (fst kv)) m -> map_get texpr_eqb (mapt e) (map_keys m) = map_get texpr_eqb e m.
  Proof. intros He. induction 1 as [| [k v] m Hk0 _ IH]; cbn; [reflexivity |]. cbn in Hk0. rewrite map_texpr_eqb by assumption. now destruct (texpr_eqb e k). Qed.
  Variable cs : casing.
  Lemma map_new_type p o b : new_type_name cs p (mapo o) (map_b b) = option_map (fun x : nat * rstr * bst => (fst x, map_b (snd x))) (new_type_name cs p o b).
  Proof. unfold new_type_name. destruct o as [n |]; cbn; [| reflexivity]. rewrite Ht. destruct (camel cs (name_text n)); [| reflexivity]. now destruct (bump _ _). Qed.
  Lemma map_name_parts conv d l : forall k m, name_parts conv d k m (map mapo l) = name_parts conv d k m l.
  Proof. induction l as [| [n |] l IH]; intros k m; cbn; [reflexivity | |]; [rewrite Ht; destruct (conv _); [| reflexivity]; destruct (bump _ m) |]; now rewrite IH. Qed.
  Lemma map_named l : existsb (fun n : option name => match n with Some _ => true | None => false end) (map mapo l) = existsb (fun n => match n with Some _ => true | None => false end) l.
  Proof. induction l as [| [n |] l IH]; cbn; auto. Qed.
  Lemma new_type_keys p o b x : new_type_name cs p o b = Some x -> fix_map (snd x) = fix_map b.
  Proof. unfold new_type_name. destruct o as [n |]; [| now intros [= <-]]. destruct (camel cs _); [| discriminate]. destruct (bump _ _). now intros [= <-]. Qed.
  Lemma gen_literal_keys o s b b' i : gen_literal cs o s b = Some (b', i) -> fix_map b' = fix_map b.
  Proof. unfold gen_literal. destruct (map_get _ _ _); [now intros [= <- <-] |]. destruct (new_type_name _ _ _ _) as [[[? ?] b1] |] eqn:E; [| discriminate]. apply new_type_keys in E. cbn in E. destruct s as [| c [| ? ?]]; intros [= <- <-]; exact E. Qed.
  Lemma gen_cat_keys o ns ids b b' i : gen_cat cs o ns ids b = Some (b', i) -> fix_map b' = fix_map b.
  Proof. unfold gen_cat. destruct (map_get _ _ _); [now intros [= <- <-] |]. destruct (new_type_name _ _ _ _) as [[[? ?] b1] |] eqn:E; [| discriminate]. apply new_type_keys in E. cbn in E. destruct (ids_ok _ _); [| discriminate]. destruct (name_parts _ _ _ _ _); [| discriminate]. intros [= <- <-]. exact E. Qed.
  Lemma gen_alt_keys o ns ts ids b b' i : gen_alt cs o ns ts ids b = Some (b', i) -> fix_map b' = fix_map b.
  Proof. unfold gen_alt. destruct (map_get _ _ _); [now intros [= <- <-] |]. destruct (new_type_name _ _ _ _) as [[[? ?] b1] |] eqn:E; [| discriminate]. apply new_type_keys in E. cbn in E. destruct (ids_ok _ _); [| discriminate]. destruct (name_parts _ _ _ _ _); [| discriminate]. destruct (forallb _ _); intros [= <- <-]; exact E. Qed.
  Lemma gen_list_keys l : Forall (fun e => key_ok e -> forall b b' i, keys_ok b -> gen cs e b = Some (b', i) -> keys_ok b') l -> Forall key_ok l -> forall b b' ids, keys_ok b -> gen_list (gen cs) l b = Some (b', ids) -> keys_ok b'.
  Proof.
    induction 1 as [| e l He _ IH]; intros Hl b b' ids Hb E; cbn in E; [now injection E as <- <- |]. inversion Hl; subst. destruct (gen cs e b) as [[b1 id] |] eqn:E1; [| discriminate]. destruct (gen_list _ l b1) as [[b2 ids'] |] eqn:E2; [| discriminate]. injection E as <- <-. eauto.
  Qed.
  Lemma gen_keys e : key_ok e -> forall b b' i, keys_ok b -> gen cs e b = Some (b', i) -> keys_ok b'.
  Proof.
    induction e using texpr_ind'; intros He b b' j Hb E.
    - cbn in E. unfold gen_epsilon in E. destruct (eps_id b); now injection E as <- <-.
    - cbn in E. apply gen_literal_keys in E. unfold keys_ok. now rewrite E.
    - rewrite gen_cat_eq in E. destruct (gen_list (gen cs) l b) as [[b1 ids] |] eqn:El; [| discriminate]. apply gen_cat_keys in E. unfold keys_ok. rewrite E. eapply gen_list_keys; [exact H | eapply key_cat; exact He | exact Hb | exact El].
    - rewrite gen_alt_eq in E. destruct (gen_list (gen cs) l b) as [[b1 ids] |] eqn:El; [| discriminate]. apply gen_alt_keys in E. unfold keys_ok. rewrite E. eapply gen_list_keys; [exact H | eapply key_alt; exact He | exact Hb | exact El].
    - cbn [gen] in E. destruct (map_get _ _ _); [now injection E as <- <- |]. destruct (new_type_name _ _ _ _) as [[[id ident] b1] |] eqn:En; [| discriminate]. apply new_type_keys in En. cbn in En. cbv zeta in E. destruct (gen cs e _) as [[b4 k] |] eqn:Eg; [| discriminate].
      apply key_fix in He. apply IHe in Eg; [| exact He |].
      + destruct (nth_error _ k); [| discriminate]. destruct (Nat.ltb _ _); [| discriminate]. injection E as <- <-. exact Eg.
      + unfold keys_ok. cbn. rewrite En. constructor; assumption.
    - cbn in E. unfold gen_variable in E. destruct (nth_error _ i); [| discriminate]. destruct (map_get _ _ _); [now injection E as <- <- |]. destruct (nth_error _ _); [| discriminate]. now injection E as <- <-.
  Qed.
  Lemma gen_list_map l : Forall (fun e => key_ok e -> forall b, keys_ok b -> gen cs (mapt e) (map_b b) = mapg (gen cs e b)) l -> Forall key_ok l -> forall b, keys_ok b ->
    gen_list (gen cs) (map mapt l) (map_b b) = option_map (fun x : bst * list nat => (map_b (fst x), snd x)) (gen_list (gen cs) l b).
  Proof.
    induction 1 as [| e l He _ IH]; intros Hl b Hb; cbn; [reflexivity |]. inversion Hl; subst. rewrite He by assumption. destruct (gen cs e b) as [[b1 id] |] eqn:E1; [| reflexivity]. cbn. rewrite IH by (auto; eapply gen_keys; eauto). now destruct (gen_list _ l b1) as [[? ?] |].
  Qed.
  Theorem map_gen e : key_ok e -> forall b, keys_ok b -> gen cs (mapt e) (map_b b) = mapg (gen cs e b).
  Proof.
    induction e using texpr_ind'; intros He b Hb; cbn [map_texpr].
    - cbn. unfold gen_epsilon. cbn. now destruct (eps_id b).
    - cbn. unfold gen_literal. cbn [map_b set_fix_map lit_map]. destruct (map_get _ _ _); [reflexivity |]. change (set_fix_map (map_keys (fix_map b)) b) with (map_b b). rewrite map_new_type. destruct (new_type_name _ _ _ _) as [[[? ?] b1] |]; [| reflexivity]. now destruct s as [| c [| ? ?]].
    - rewrite !gen_cat_eq, (gen_list_map l H (key_cat _ _ _ He) b Hb). destruct (gen_list (gen cs) l b) as [[b1 ids] |]; [| reflexivity]. cbn [option_map fst snd map_ann a_name].
      unfold gen_cat. cbn [map_b set_fix_map cat_map]. destruct (map_get _ _ _); [reflexivity |]. change (set_fix_map (map_keys (fix_map b1)) b1) with (map_b b1). rewrite map_new_type. destruct (new_type_name _ _ _ _) as [[[? ?] b2] |]; [| reflexivity]. cbn [option_map fst snd].
      unfold ids_ok. cbn [map_b set_fix_map data]. destruct (forallb _ ids); [| reflexivity]. rewrite map_map, (map_ext _ _ map_t_name), <- (map_map t_name mapo), map_name_parts, map_named. now destruct (name_parts _ _ _ _ _).
    - rewrite !gen_alt_eq, (gen_list_map l H (key_alt _ _ _ He) b Hb). destruct (gen_list (gen cs) l b) as [[b1 ids] |]; [| reflexivity]. cbn [option_map fst snd map_ann a_name].
      unfold gen_alt. cbn [map_b set_fix_map alt_map]. destruct (map_get _ _ _); [reflexivity |]. change (set_fix_map (map_keys (fix_map b1)) b1) with (map_b b1). rewrite map_new_type. destruct (new_type_name _ _ _ _) as [[[? ?] b2] |]; [| reflexivity]. cbn [option_map fst snd].
      unfold ids_ok. cbn [map_b set_fix_map data]. destruct (forallb _ ids); [| reflexivity]. rewrite !map_map, (map_ext (fun x => get_type (mapt x)) get_type map_get_type), (map_ext _ _ map_t_name), <- (map_map t_name mapo), map_name_parts. destruct (name_parts _ _ _ _ _); [| reflexivity].
      cbn [can_char]. now destruct (forallb _ ids).
    - cbn [gen]. pose proof (key_fix _ _ He) as Hi. change (fix_map (map_b b)) with (map_keys (fix_map b)). rewrite map_get_keys by assumption. destruct (map_get _ _ _); [reflexivity |]. cbn [map_ann a_name]. rewrite map_new_type.
      destruct (new_type_name _ _ _ _) as [[[id ident] b1] |] eqn:En; [| reflexivity]. apply new_type_keys in En. cbn in En. cbn [option_map fst snd]. cbv zeta.
      match goal with |- context [gen cs e ?B] => set (b3 := B) end. assert (H3 : keys_ok b3) by (unfold keys_ok, b3; cbn; rewrite En; constructor; assumption).
      match goal with |- context [gen cs (mapt e) ?B] => change B with (map_b b3) end. rewrite (IHe Hi b3 H3). destruct (gen cs e b3) as [[b4 j] |]; [| reflexivity]. cbn [option_map fst snd]. cbn [set_context map_b set_fix_map data context]. destruct (nth_error (data b4) j); [| reflexivity]. now destruct (Nat.ltb _ _).
    - cbn. unfold gen_variable. cbn [map_b set_fix_map context var_map data]. destruct (nth_error _ i); [| reflexivity]. destruct (map_get _ _ _); [reflexivity |]. now destruct (nth_error _ _).
  Qed.
  Corollary map_generate e : key_ok e -> generate cs (mapt e) = mapg (generate cs e).
  Proof. intros H. unfold generate. change bst_default with (map_b bst_default) at 1. apply map_gen; [exact H | constructor]. Qed.
  Lemma map_emit o id b : emit_code o id (map_b b) = emit_code o id b.
  Proof. reflexivity. Qed.
End Map.
