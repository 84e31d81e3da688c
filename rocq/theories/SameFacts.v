(** * SameFacts: code generation, inference and reduction do not depend on
    names and positions. *)
From Verif Require Export ShareFacts InferMore EraseBeta ReduceFacts ReduceMore Warm.
From Coq Require Import List Lia.

(** ** Tables for the same grammar behave the same *)
Inductive envs (tab tab' : table) : list nat -> list nat -> Prop :=
| envs_nil : envs tab tab' [] []
| envs_cons ctx ctx' f f' a a' e e' : envs tab tab' ctx ctx' -> shape e = shape e' -> repr tab ctx f (TFix a e) -> repr tab' ctx' f' (TFix a' e') ->
    envs tab tab' (f :: ctx) (f' :: ctx').
Lemma envs_nth tab tab' ctx ctx' : envs tab tab' ctx ctx' -> forall i f f', nth_error ctx i = Some f -> nth_error ctx' i = Some f' ->
  exists c c' a a' e e', envs tab tab' c c' /\ shape e = shape e' /\ repr tab c f (TFix a e) /\ repr tab' c' f' (TFix a' e').
Proof.
  induction 1 as [| ctx ctx' f f' a a' e e' H IH Hs H1 H2]; intros [| i] x x' E E'; cbn in *; try discriminate; [| eauto].
  injection E as <-. injection E' as <-. do 6 eexists. eauto.
Qed.
Lemma Forall2_repr_same tab tab' ctx ctx' ids l : Forall2 (repr tab ctx) ids l -> forall ids' l', Forall2 (repr tab' ctx') ids' l' -> map shape l = map shape l' ->
  Forall2 (fun i i' => exists e e', shape e = shape e' /\ repr tab ctx i e /\ repr tab' ctx' i' e') ids ids'.
Proof.
  induction 1 as [| i e ids l H Hl IH]; intros ids' l' H' E; destruct l' as [| e' l']; try discriminate; inversion H'; subst; constructor; cbn in E; injection E as E1 E2; eauto.
Qed.
Lemma shapes_types l l' : map shape l = map shape l' -> map get_type l = map get_type l'.
Proof. intros E. apply (f_equal (map get_type)) in E. rewrite !map_map in E. now rewrite !(map_ext _ get_type shape_type) in E. Qed.
Lemma take_seq_same (f g : nat -> iw -> res tree take_error * iw) ids ids' : Forall2 (fun i i' => forall st, f i st = g i' st) ids ids' -> forall st, take_seq f ids st = take_seq g ids' st.
Proof. induction 1 as [| i i' ids ids' H _ IH]; intros st; cbn; [reflexivity |]. rewrite H. destruct (g i' st) as [[t | | |] st1]; try reflexivity. now rewrite IH. Qed.
Theorem take_same tab tab' fuel : forall ctx ctx' id id' e e', envs tab tab' ctx ctx' -> shape e = shape e' -> repr tab ctx id e -> repr tab' ctx' id' e' ->
  forall st, take tab fuel id st = take tab' fuel id' st.
Proof.
  induction fuel as [| n IH]; intros ctx ctx' id id' e e' Hv Hs H H' st; [reflexivity |]. cbn [take].
  destruct e, e'; try discriminate; inversion H; inversion H'; subst; cbn [shape] in Hs; injection Hs; intros; subst.
  - match goal with A : def_of tab _ = _, B : def_of tab' _ = _ |- _ => rewrite A, B end. reflexivity.
  - match goal with A : def_of tab _ = _, B : def_of tab' _ = _ |- _ => rewrite A, B end. reflexivity.
  - match goal with A : def_of tab _ = _, B : def_of tab' _ = _ |- _ => rewrite A, B end. erewrite take_seq_same; [reflexivity |].
    eapply Forall2_impl_in; [eapply Forall2_repr_same; eassumption |]. cbn. intros x y _ (z & z' & Hz & K1 & K2) st'. eapply IH; eassumption.
  - match goal with A : def_of tab _ = _, B : def_of tab' _ = _, C : map shape _ = map shape _ |- _ => rewrite A, B, (shapes_types _ _ C) end.
    assert (B : forall k st, take_branch (take tab n) ids k st = take_branch (take tab' n) ids0 k st).
    { intros k st'. unfold take_branch. assert (F : Forall2 (fun i i' => forall st, take tab n i st = take tab' n i' st) ids ids0).
      { eapply Forall2_impl_in; [eapply Forall2_repr_same; eassumption |]. cbn. intros x y _ (z & z' & Hz & K1 & K2) st2. eapply IH; eassumption. }
      clear - F. assert (X : forall j, match nth_error ids j, nth_error ids0 j with Some i, Some i' => take tab n i st' = take tab' n i' st' | None, None => True | _, _ => False end).
      { induction F as [| i i' l l' Hi _ IHF]; intros [| j]; cbn; auto. apply IHF. }
      specialize (X k). destruct (nth_error ids k), (nth_error ids0 k); try contradiction; [now rewrite X | reflexivity]. }
    destruct (iw_peek st) as [pk st1]. destruct (match pk with Some c => _ | None => None end); [apply B |]. destruct (find_nullable 0 (map get_type terms0)); [apply B |]. reflexivity.
  - match goal with A : def_of tab _ = _, B : def_of tab' _ = _ |- _ => rewrite A, B end. eapply IH; [| eassumption | eassumption | eassumption]. econstructor; eassumption.
  - match goal with A : def_of tab _ = _, B : def_of tab' _ = _ |- _ => rewrite A, B end.
    destruct (envs_nth _ _ _ _ Hv _ _ _ ltac:(eassumption) ltac:(eassumption)) as (c & c' & a1 & a2 & e1 & e2 & G1 & G2 & G3 & G4).
    erewrite (IH c c'); [reflexivity | exact G1 | | exact G3 | exact G4]. cbn. now rewrite G2.
Qed.
Theorem generated_same cs cs' e e' b b' root root' : wt [] e -> wt [] e' -> sharing_ok e -> sharing_ok e' -> shape e = shape e' ->
  generate cs e = Some (b, root) -> generate cs' e' = Some (b', root') -> forall fuel st, take (data b) fuel root st = take (data b') fuel root' st.
Proof.
  intros W W' S S' E G G' fuel. apply gen_total in G, G'. fold (generate (total cs) e) in G. fold (generate (total cs') e') in G'.
  apply (generate_repr (total cs) e S) in G; [| exact W | apply total_names]. apply (generate_repr (total cs') e' S') in G'; [| exact W' | apply total_names].
  eapply take_same; [constructor | exact E | exact G | exact G'].
Qed.

(** ** Inference *)
(** Errors that differ only in names and positions. *)
Definition same_type_error (x y : type_error) : Prop :=
  match x, y with
  | FirstNullable e _, FirstNullable e' _ => shape e = shape e'
  | FirstFlastOverlap t _ e, FirstFlastOverlap t' _ e' => t = t' /\ shape e = shape e'
  | BothNullable t _ e, BothNullable t' _ e' => t = t' /\ shape e = shape e'
  | FirstOverlap t _ e, FirstOverlap t' _ e' => t = t' /\ shape e = shape e'
  | VariableError k i _ _, VariableError k' i' _ _ => k = k' /\ i = i'
  | UnexpectedCall _ e, UnexpectedCall _ e' | UnexpectedLambda _ e, UnexpectedLambda _ e' | UnexpectedLet _ e, UnexpectedLet _ e'
  | ExpectedLambda _ e, ExpectedLambda _ e' => erase e = erase e'
  | _, _ => False
  end.
Definition same_res {A E} (R : A -> A -> Prop) (Q : E -> E -> Prop) (x y : res A E) : Prop :=
  match x, y with
  | Ok a, Ok b => R a b
  | Err a, Err b => Q a b
  | Panic, Panic | OutOfFuel, OutOfFuel => True
  | _, _ => False
  end.
Definition same_typed (r r' : texpr) : Prop := shape r = shape r'.
Definition same_list (x y : list texpr * ty) : Prop := map shape (fst x) = map shape (fst y) /\ snd x = snd y.
Lemma same_get_type r r' : same_typed r r' -> get_type r = get_type r'.
Proof. intros H. unfold same_typed in H. rewrite <- (shape_type r), <- (shape_type r'). congruence. Qed.
Lemma seq_go_same inf inf' l : forall l' t, Forall2 (fun p p' => same_res same_typed same_type_error (inf (snd p)) (inf' (snd p'))) l l' ->
  same_res same_list same_type_error (seq_go inf t l) (seq_go inf' t l').
Proof.
  induction l as [| [p e] l IH]; intros l' t F; inversion F as [| ? [p' e'] ? m' H1 H2]; subst; cbn [seq_go]; [now split |]. cbn [snd] in H1.
  destruct (inf e) as [r | x | |], (inf' e') as [r' | x' | |]; cbn in H1; try contradiction; try exact H1. rewrite (same_get_type _ _ H1).
  destruct (cset_disjoint _ _); [| now split]. fold (seq_go inf) (seq_go inf'). specialize (IH m' (ty_cat t (get_type r')) H2).
  destruct (seq_go inf _ l) as [[ts t1] | x | |], (seq_go inf' _ m') as [[ts' t1'] | x' | |]; cbn in IH |- *; try contradiction; try exact IH. destruct IH as [E1 E2]. cbn in *. split; cbn; [now rewrite E1, H1 | exact E2].
Qed.
Lemma alt_go_same inf inf' l : forall l' t, Forall2 (fun p p' => same_res same_typed same_type_error (inf (snd p)) (inf' (snd p'))) l l' ->
  same_res same_list same_type_error (alt_go inf t l) (alt_go inf' t l').
Proof.
  induction l as [| [p e] l IH]; intros l' t F; inversion F as [| ? [p' e'] ? m' H1 H2]; subst; cbn [alt_go]; [now split |]. cbn [snd] in H1.
  destruct (inf e) as [r | x | |], (inf' e') as [r' | x' | |]; cbn in H1; try contradiction; try exact H1. rewrite (same_get_type _ _ H1).
  destruct (_ && _); [now split |]. destruct (cset_disjoint _ _); [| now split]. fold (alt_go inf) (alt_go inf'). specialize (IH m' (ty_alt t (get_type r')) H2).
  destruct (alt_go inf _ l) as [[ts t1] | x | |], (alt_go inf' _ m') as [[ts' t1'] | x' | |]; cbn in IH |- *; try contradiction; try exact IH. destruct IH as [E1 E2]. cbn in *. split; cbn; [now rewrite E1, H1 | exact E2].
Qed.
Lemma fix_loop_same f g n : (forall t, same_res same_typed same_type_error (f t) (g t)) -> forall t, same_res same_typed same_type_error (fix_loop f n t) (fix_loop g n t).
Proof.
  intros H. induction n as [| n IH]; intros t; cbn; [exact Logic.I |]. specialize (H t). destruct (f t) as [r | | |], (g t) as [r' | | |]; cbn in H; try contradiction; try exact H. rewrite (same_get_type _ _ H).
  destruct (ty_eqb _ _); [exact H | apply IH].
Qed.
Lemma Forall2_erased (P : nexpr -> nexpr -> Prop) (r : list (span * nexpr)) : Forall (fun x : span * nexpr => forall e', erase (snd x) = erase e' -> P (snd x) e') r -> forall r' : list (span * nexpr), map (fun x => erase (snd x)) r = map (fun x => erase (snd x)) r' -> Forall2 (fun (p p' : span * nexpr) => P (snd p) (snd p')) r r'.
Proof. induction 1 as [| x r Hx _ IH]; intros [| y r'] E; cbn in E; try discriminate; constructor; injection E as E1 E2; auto. Qed.
Theorem infer_same e : forall e', erase e = erase e' -> forall fuel nm nm' c, same_res same_typed same_type_error (infer fuel nm c e) (infer fuel nm' c e').
Proof.
  induction e using nexpr_ind_fix; intros e' Ee fuel nm nm' c; destruct e' as [a' | a' s' | a' f1 rest | a' f1 rest | a' e' | a' i' | a' o' l' | a' n' i' | a' n' x' y']; try discriminate Ee; cbn [erase] in Ee; try (injection Ee; intros; subst).
  - reflexivity.
  - reflexivity.
  - rewrite !infer_cat. match goal with X : erase e = erase _ |- _ => specialize (IHe _ X fuel (e_name e) (e_name f1) c) end. destruct (infer fuel (e_name e) c e) as [f | | |], (infer fuel (e_name f1) c f1) as [f' | | |]; cbn in IHe; try contradiction; try exact IHe.
    rewrite (same_get_type _ _ IHe). destruct (nullable _); [exact IHe |].
    assert (S : same_res same_list same_type_error (seq_go (fun e => infer fuel (e_name e) (push_unguard c) e) (get_type f') r) (seq_go (fun e => infer fuel (e_name e) (push_unguard c) e) (get_type f') rest)).
    { apply seq_go_same. apply (Forall2_erased (fun e e' => same_res same_typed same_type_error (infer fuel (e_name e) (push_unguard c) e) (infer fuel (e_name e') (push_unguard c) e'))); [| assumption]. eapply Forall_impl; [| eassumption]. cbn. intros. auto. }
    destruct (seq_go _ _ r) as [[ts t1] | x | |], (seq_go _ _ rest) as [[ts' t1'] | x' | |]; cbn in S |- *; try contradiction; try exact S. destruct S as [S1 S2]. cbn in S1, S2. unfold same_typed in *. cbn. congruence.
  - rewrite !infer_alt. match goal with X : erase e = erase _ |- _ => specialize (IHe _ X fuel (e_name e) (e_name f1) c) end. destruct (infer fuel (e_name e) c e) as [f | | |], (infer fuel (e_name f1) c f1) as [f' | | |]; cbn in IHe; try contradiction; try exact IHe.
    rewrite (same_get_type _ _ IHe).
    assert (S : same_res same_list same_type_error (alt_go (fun e => infer fuel (e_name e) c e) (get_type f') r) (alt_go (fun e => infer fuel (e_name e) c e) (get_type f') rest)).
    { apply alt_go_same. apply (Forall2_erased (fun e e' => same_res same_typed same_type_error (infer fuel (e_name e) c e) (infer fuel (e_name e') c e'))); [| assumption]. eapply Forall_impl; [| eassumption]. cbn. intros. auto. }
    destruct (alt_go _ _ r) as [[ts t1] | x | |], (alt_go _ _ rest) as [[ts' t1'] | x' | |]; cbn in S |- *; try contradiction; try exact S. destruct S as [S1 S2]. cbn in S1, S2. unfold same_typed in *. cbn. congruence.
  - destruct e'; cbn in *; try discriminate. match goal with X : LLam _ _ = LLam _ _ |- _ => injection X; intros end.
    match goal with |- context [infer fuel ?n (push_var _ c) e] => set (m := n) end. match goal with |- context [infer fuel ?n (push_var _ c) e'] => set (m' := n) end.
    assert (S := fix_loop_same (fun last => infer fuel m (push_var last c) e) (fun last => infer fuel m' (push_var last c) e') fuel (fun t => IHe e' ltac:(assumption) fuel m m' (push_var t c)) ty_default).
    destruct (fix_loop _ fuel ty_default) as [r | | |], (fix_loop _ fuel ty_default) as [r' | | |]; cbn in S |- *; try contradiction; try exact S. unfold same_typed in *. cbn. congruence.
  - destruct e; cbn [erase] in *; try (exfalso; eapply H; reflexivity); destruct e'; cbn [erase] in *; try discriminate; cbn; congruence.
  - cbn. destruct (get_variable_type c _) as [t | k | |]; cbn; auto. reflexivity.
  - cbn. congruence.
  - cbn. congruence.
  - cbn. congruence.
Qed.
Lemma lit_chars_lexpr e : forall e', erase e = erase e' -> lit_chars e = lit_chars e'.
Proof.
  induction e using nexpr_ind'; intros e' E; destruct e' as [a' | a' s' | a' f1 rest | a' f1 rest | a' e' | a' i' | a' o' args | a' n' i' | a' n' x' y']; try discriminate E; cbn [erase] in E; try (injection E; intros; subst); cbn [lit_chars]; auto.
  - f_equal; [auto |]. clear E. revert rest H0. induction H as [| x r Hx _ IH]; intros [| y rest] E; cbn in E; try discriminate; [reflexivity |]. injection E as E1 E2. cbn. f_equal; auto.
  - f_equal; [auto |]. clear E. revert rest H0. induction H as [| x r Hx _ IH]; intros [| y rest] E; cbn in E; try discriminate; [reflexivity |]. injection E as E1 E2. cbn. f_equal; auto.
  - f_equal; [auto |]. clear E. revert args H0. induction H as [| x r Hx _ IH]; intros [| y rest] E; cbn in E; try discriminate; [reflexivity |]. injection E as E1 E2. cbn. f_equal; auto.
  - f_equal; auto.
Qed.
Corollary typecheck_same e e' : erase e = erase e' -> same_res same_typed same_type_error (typecheck e) (typecheck e').
Proof. intros E. unfold typecheck, infer_fuel. rewrite (lit_chars_lexpr e e' E). now apply infer_same. Qed.

(** ** The same grammar *)
(** Inference ignores the parameters of the function under a fixed point. *)
Fixpoint norm (e : nexpr) : nexpr :=
  match e with
  | ECat a f r => ECat a (norm f) (map (fun x => (fst x, norm (snd x))) r)
  | EAlt a f r => EAlt a (norm f) (map (fun x => (fst x, norm (snd x))) r)
  | EFix a (ELam b _ i) => EFix a (ELam b [] (norm i))
  | _ => e
  end.
Lemma norm_name e : e_name (norm e) = e_name e.
Proof. destruct e as [| | | | a i | | | |]; try reflexivity. destruct i; reflexivity. Qed.
Lemma seq_go_norm inf l : (forall x, In x l -> inf (norm (snd x)) = inf (snd x)) -> forall t, seq_go inf t (map (fun x => (fst x, norm (snd x))) l) = seq_go inf t l.
Proof. induction l as [| [p e] l IH]; intros H t; cbn; [reflexivity |]. specialize (H (p, e) (or_introl eq_refl)) as H0. cbn in H0. rewrite H0. destruct (inf e) as [r | | |]; try reflexivity. destruct (cset_disjoint _ _); [| reflexivity]. fold (seq_go inf). rewrite IH; [reflexivity |]. intros x Hx. apply H. now right. Qed.
Lemma alt_go_norm inf l : (forall x, In x l -> inf (norm (snd x)) = inf (snd x)) -> forall t, alt_go inf t (map (fun x => (fst x, norm (snd x))) l) = alt_go inf t l.
Proof. induction l as [| [p e] l IH]; intros H t; cbn; [reflexivity |]. specialize (H (p, e) (or_introl eq_refl)) as H0. cbn in H0. rewrite H0. destruct (inf e) as [r | | |]; try reflexivity. destruct (_ && _); [reflexivity |]. destruct (cset_disjoint _ _); [| reflexivity]. fold (alt_go inf). rewrite IH; [reflexivity |]. intros x Hx. apply H. now right. Qed.
Lemma all_some_In {A B} (f : A -> option B) l gs x : all_some (map f l) = Some gs -> In x l -> exists g, f x = Some g.
Proof. revert gs. induction l as [| y l IH]; intros gs E []; cbn in E; destruct (f y) eqn:Ey; try discriminate; [subst; eauto |]. destruct (all_some (map f l)); [| discriminate]. eauto. Qed.
Lemma fix_loop_ext f g n : (forall t, f t = g t) -> forall t, fix_loop f n t = fix_loop g n t.
Proof. intros H. induction n as [| n IH]; intros t; cbn; [reflexivity |]. rewrite H. destruct (g t); try reflexivity. destruct (ty_eqb _ _); auto. Qed.
Lemma infer_norm e : forall g, gram_of e = Some g -> forall fuel nm c, infer fuel nm c (norm e) = infer fuel nm c e.
Proof.
  induction e using nexpr_ind_fix; intros g Hg fuel nm c; try reflexivity; cbn [gram_of] in Hg.
  - destruct (gram_of e) as [g1 |]; [| discriminate]. destruct (all_some _) as [gs |] eqn:Ea; [| discriminate]. cbn [norm]. rewrite !infer_cat, norm_name, (IHe _ eq_refl). destruct (infer fuel (e_name e) c e) as [f | | |]; try reflexivity. destruct (nullable _); [destruct r as [| [? ?] ?]; reflexivity |].
    rewrite (seq_go_norm (fun e => infer fuel (e_name e) (push_unguard c) e)); [reflexivity |]. intros x Hx. destruct (all_some_In _ _ _ _ Ea Hx) as [gx Egx]. rewrite Forall_forall in H. rewrite norm_name. now apply (H x Hx gx).
  - destruct (gram_of e) as [g1 |]; [| discriminate]. destruct (all_some _) as [gs |] eqn:Ea; [| discriminate]. cbn [norm]. rewrite !infer_alt, norm_name, (IHe _ eq_refl). destruct (infer fuel (e_name e) c e) as [f | | |]; try reflexivity.
    rewrite (alt_go_norm (fun e => infer fuel (e_name e) c e)); [reflexivity |]. intros x Hx. destruct (all_some_In _ _ _ _ Ea Hx) as [gx Egx]. rewrite Forall_forall in H. rewrite norm_name. now apply (H x Hx gx).
  - destruct (gram_of e) as [g1 |]; [| discriminate]. cbn [norm]. rewrite !infer_fix, norm_name. erewrite fix_loop_ext; [reflexivity |]. intros t. now apply (IHe g1).
  - destruct e; try discriminate. exfalso. eapply H; reflexivity.
Qed.
Lemma all_some_cons_inv {A} (x : option A) l y r : all_some (x :: l) = Some (y :: r) -> x = Some y /\ all_some l = Some r.
Proof. cbn. destruct x; [| discriminate]. destruct (all_some l); [| discriminate]. cbn. intros [= -> ->]. auto. Qed.
Lemma all_some_nil_inv {A} (l : list (option A)) : all_some l = Some [] -> l = [].
Proof. destruct l as [| [x |] l]; cbn; try discriminate; [reflexivity |]. destruct (all_some l); discriminate. Qed.
Lemma gram_inv e g : gram_of e = Some g ->
  match g with
  | GEps => exists a, e = EEps a
  | GLit s => exists a, e = ELit a s
  | GCat gs => exists a f r g1 gs1, e = ECat a f r /\ gs = g1 :: gs1 /\ gram_of f = Some g1 /\ all_some (map (fun x => gram_of (snd x)) r) = Some gs1
  | GAlt gs => exists a f r g1 gs1, e = EAlt a f r /\ gs = g1 :: gs1 /\ gram_of f = Some g1 /\ all_some (map (fun x => gram_of (snd x)) r) = Some gs1
  | GFix g1 => exists a b n i, e = EFix a (ELam b n i) /\ gram_of i = Some g1
  | GVar i => exists a, e = EVar a i
  end.
Proof.
  destruct e as [a | a s | a f r | a f r | a i | a i | a o l | a n i | a n x y]; cbn [gram_of]; try discriminate.
  - intros [= <-]. eauto.
  - intros [= <-]. eauto.
  - destruct (gram_of f) as [g1 |] eqn:E1; [| discriminate]. destruct (all_some _) as [gs |] eqn:E2; [| discriminate]. intros [= <-]. do 5 eexists. eauto.
  - destruct (gram_of f) as [g1 |] eqn:E1; [| discriminate]. destruct (all_some _) as [gs |] eqn:E2; [| discriminate]. intros [= <-]. do 5 eexists. eauto.
  - destruct i as [| | | | | | | b n i |]; try discriminate. destruct (gram_of i) as [g1 |] eqn:E1; [| discriminate]. intros [= <-]. do 4 eexists. eauto.
  - intros [= <-]. eauto.
Qed.
Lemma norms_erase r : Forall (fun x => forall e' g, gram_of (snd x) = Some g -> gram_of e' = Some g -> erase (norm (snd x)) = erase (norm e')) r ->
  forall (gs : list gram) (r' : list (span * nexpr)), all_some (map (fun x => gram_of (snd x)) r) = Some gs -> all_some (map (fun x => gram_of (snd x)) r') = Some gs ->
  map (fun x : span * nexpr => erase (norm (snd x))) r = map (fun x : span * nexpr => erase (norm (snd x))) r'.
Proof.
  induction 1 as [| x r Hx _ IH]; intros gs r' E E'.
  - injection E as <-. apply all_some_nil_inv in E'. now destruct r'.
  - destruct gs as [| g gs]; [now apply all_some_nil_inv in E |]. destruct r' as [| y r']; [discriminate |]. cbn [map] in E, E'.
    apply all_some_cons_inv in E as [E1 E2]. apply all_some_cons_inv in E' as [E1' E2']. cbn. f_equal; eauto.
Qed.
Lemma norm_erase e : forall e' g, gram_of e = Some g -> gram_of e' = Some g -> erase (norm e) = erase (norm e').
Proof.
  induction e using nexpr_ind_fix; intros e' g Hg Hg'; pose proof (gram_inv _ _ Hg) as I; pose proof (gram_inv _ _ Hg') as I'; destruct g;
    repeat (match goal with X : exists _, _ |- _ => destruct X | X : _ /\ _ |- _ => destruct X end; subst); try discriminate.
  - reflexivity.
  - match goal with X : ELit _ _ = ELit _ _ |- _ => injection X; intros; subst end. reflexivity.
  - match goal with X : ECat _ _ _ = ECat _ _ _ |- _ => injection X; intros; subst end. match goal with X : _ :: _ = _ :: _ |- _ => injection X; intros; subst end.
    cbn [norm erase]. rewrite !map_map. cbn [snd]. do 2 f_equal; [eauto |]. eapply norms_erase; eassumption.
  - match goal with X : EAlt _ _ _ = EAlt _ _ _ |- _ => injection X; intros; subst end. match goal with X : _ :: _ = _ :: _ |- _ => injection X; intros; subst end.
    cbn [norm erase]. rewrite !map_map. cbn [snd]. do 2 f_equal; [eauto |]. eapply norms_erase; eassumption.
  - match goal with X : EFix _ _ = EFix _ _ |- _ => injection X; intros; subst end. cbn [norm erase]. cbn. do 2 f_equal. eauto.
  - match goal with X : EFix _ _ = EFix _ _ |- _ => injection X; intros; subst end. exfalso. eapply H; reflexivity.
  - match goal with X : EVar _ _ = EVar _ _ |- _ => injection X; intros; subst end. reflexivity.
Qed.
Lemma lit_chars_norm e : lit_chars (norm e) = lit_chars e.
Proof.
  induction e using nexpr_ind_fix; cbn [norm lit_chars]; try reflexivity.
  - rewrite IHe. f_equal. induction H as [| x r Hx _ IH]; cbn; [reflexivity | now rewrite Hx, IH].
  - rewrite IHe. f_equal. induction H as [| x r Hx _ IH]; cbn; [reflexivity | now rewrite Hx, IH].
  - exact IHe.
  - destruct e; try reflexivity. exfalso. eapply H; reflexivity.
Qed.
Theorem typecheck_gram e e' g : gram_of e = Some g -> gram_of e' = Some g -> same_res same_typed same_type_error (typecheck e) (typecheck e').
Proof.
  intros H H'. pose proof (typecheck_same _ _ (norm_erase e e' g H H')) as S. unfold typecheck, infer_fuel in *. rewrite !lit_chars_norm, (infer_norm e g H), (infer_norm e' g H'), !norm_name in S. exact S.
Qed.

(** ** Reduction *)
Definition same_erase (e e' : nexpr) : Prop := erase e = erase e'.
Definition same_red (x x' : red_error) : Prop := failure_of x = failure_of x'.
Lemma same_bind {E} (Q : E -> E -> Prop) {A B} (R : A -> A -> Prop) (S : B -> B -> Prop) (x y : res A E) (f g : A -> res B E) :
  same_res R Q x y -> (forall a b, R a b -> same_res S Q (f a) (g b)) -> same_res S Q (res_bind x f) (res_bind y g).
Proof. destruct x, y; cbn; auto; contradiction. Qed.
Lemma same_map {E} (Q : E -> E -> Prop) {A B} (R : A -> A -> Prop) (S : B -> B -> Prop) (x y : res A E) (f g : A -> B) :
  same_res R Q x y -> (forall a b, R a b -> S (f a) (g b)) -> same_res S Q (res_map f x) (res_map g y).
Proof. destruct x, y; cbn; auto; contradiction. Qed.
Definition part_erase (x : span * nexpr) : lexpr := erase (snd x).
Lemma reduce_list_same n : (forall e e', erase e = erase e' -> same_res same_erase same_red (reduce n e) (reduce n e')) ->
  forall r r' : list (span * nexpr), map part_erase r = map part_erase r' ->
  same_res (fun r r' => map part_erase r = map part_erase r') same_red
    (reduce_list (fun x => res_map (pair (fst x)) (reduce n (snd x))) r) (reduce_list (fun x => res_map (pair (fst x)) (reduce n (snd x))) r').
Proof.
  intros IH. induction r as [| x r IHr]; intros [| x' r'] E; try discriminate E; [reflexivity |]. cbn in E. injection E as E1 E2. cbn [reduce_list].
  pose proof (IH _ _ E1) as H. destruct (reduce n (snd x)), (reduce n (snd x')); cbn in H |- *; try contradiction; auto.
  specialize (IHr r' E2). destruct (reduce_list _ r), (reduce_list _ r'); cbn in IHr |- *; try contradiction; auto. now apply f_equal2.
Qed.
Theorem reduce_same n : forall e e', erase e = erase e' -> same_res same_erase same_red (reduce n e) (reduce n e').
Proof.
  induction n as [| n IH]; intros e e' E; [exact Logic.I |]. pose proof (reduce_list_same n IH) as IHl. unfold part_erase in IHl.
  destruct e as [a | a s | a f r | a f r | a i | a i | a o l | a ns i | a nm x y], e' as [a' | a' s' | a' f' r' | a' f' r' | a' i' | a' i' | a' o' l' | a' ns' i' | a' nm' x' y'];
    cbn [erase] in E; try discriminate E; try exact E.
  - injection E as E1 E2. cbn [reduce]. eapply same_bind; [apply IH, E1 |]. intros b b' Hb. eapply same_map; [apply IHl, E2 |]. intros c c' Hc. unfold same_erase in *. cbn [erase]. congruence.
  - injection E as E1 E2. cbn [reduce]. eapply same_bind; [apply IH, E1 |]. intros b b' Hb. eapply same_map; [apply IHl, E2 |]. intros c c' Hc. unfold same_erase in *. cbn [erase]. congruence.
  - injection E as E. cbn [reduce]. eapply same_bind; [apply IH, E |]. intros b b' Hb. unfold same_erase in Hb.
    destruct b as [b | b s | b f r | b f r | b i2 | b i2 | b o l | b ns i2 | b nm x y], b' as [c | c s' | c f' r' | c f' r' | c i2' | c i2' | c o' l' | c ns' i2' | c nm' x' y'];
      cbn [erase] in Hb; try discriminate Hb; try (cbn; unfold same_erase; cbn [erase]; congruence).
    injection Hb as E1 E2. eapply same_map; [apply IH, E2 |]. intros d d' Hd. unfold same_erase in *. cbn [erase]. congruence.
  - injection E as E1 E2. rewrite !reduce_call. eapply same_bind; [apply IH, E1 |]. intros b b' Hb. unfold same_erase in Hb.
    destruct b as [b | b s | b f r | b f r | b i2 | b i2 | b o2 l2 | b ns i2 | b nm x y], b' as [c | c s' | c f' r' | c f' r' | c i2' | c i2' | c o2' l2' | c ns' i2' | c nm' x' y'];
      pose proof Hb as Hb0; cbn [erase] in Hb; try discriminate Hb; try (cbn [same_res]; unfold same_red; cbn [failure_of]; congruence).
    injection Hb as E3 E4. assert (El : length l = length l') by (apply (f_equal (@length _)) in E2; now rewrite !map_length in E2).
    rewrite E3, El. destruct (Nat.eqb_spec (length ns') (length l')) as [X | X].
    + destruct (bind_args_ok l ns i2 ltac:(congruence)) as (out & Ho & Eo). destruct (bind_args_ok l' ns' i2' X) as (out' & Ho' & Eo').
      rewrite El in Ho. rewrite Ho, Ho'. eapply same_map; [apply IH; congruence |]. intros d d' Hd. unfold same_erase in *. now rewrite !erase_set_ann.
    + cbn [same_res]. unfold same_red. cbn [failure_of erase]. congruence.
  - injection E as E1 E2. rewrite !reduce_let. destruct (substitute_ok y 0 x) as (out & -> & Eo). destruct (substitute_ok y' 0 x') as (out' & -> & Eo').
    eapply same_map; [apply IH; congruence |]. intros d d' Hd. unfold same_erase in *. now rewrite !erase_set_ann.
Qed.
