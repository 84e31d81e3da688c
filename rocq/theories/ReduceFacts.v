(** * ReduceFacts: the code's substitution and reduction against [SpecBeta]. *)
From Verif Require Import BetaFacts.
From Verif Require Export EraseBeta.
From Coq Require Import Lia.

Lemma erase_set_ann a e : erase (set_ann a e) = erase e.
Proof. destruct e; reflexivity. Qed.
Lemma erase_set_name n e : erase (set_name n e) = erase e.
Proof. apply erase_set_ann. Qed.

(** ** RenameVars *)
Lemma deepen_ok e : forall n d, exists e',
  rename_vars Deepen n d e = Some e' /\ erase e' = lren (upr d (Nat.add n)) (erase e)
  /\ rename_vars Shallow n d e' = Some e.
Proof.
  assert (HP : forall n d (r : list (span * nexpr)),
    Forall (fun x => forall n d, exists e', rename_vars Deepen n d (snd x) = Some e'
      /\ erase e' = lren (upr d (Nat.add n)) (erase (snd x)) /\ rename_vars Shallow n d e' = Some (snd x)) r ->
    exists r', map_opt (fun x => option_map (pair (fst x)) (rename_vars Deepen n d (snd x))) r = Some r'
      /\ map (fun x => erase (snd x)) r' = map (lren (upr d (Nat.add n))) (map (fun x => erase (snd x)) r)
      /\ map_opt (fun x => option_map (pair (fst x)) (rename_vars Shallow n d (snd x))) r' = Some r).
  { intros n d r H. induction H as [| [p x] r Hx _ IH]; [exists []; auto |].
    destruct (Hx n d) as (x' & E1 & E2 & E3). destruct IH as (r' & F1 & F2 & F3).
    exists ((p, x') :: r'). cbn [map_opt fst snd map] in *. rewrite E1. cbn [option_map]. rewrite F1. cbn [map fst snd].
    rewrite E2, F2. split; [reflexivity |]. split; [reflexivity |]. rewrite E3. cbn [option_map]. now rewrite F3. }
  assert (HL : forall n d (r : list nexpr),
    Forall (fun x => forall n d, exists e', rename_vars Deepen n d x = Some e'
      /\ erase e' = lren (upr d (Nat.add n)) (erase x) /\ rename_vars Shallow n d e' = Some x) r ->
    exists r', map_opt (rename_vars Deepen n d) r = Some r'
      /\ map erase r' = map (lren (upr d (Nat.add n))) (map erase r)
      /\ map_opt (rename_vars Shallow n d) r' = Some r).
  { intros n d r H. induction H as [| x r Hx _ IH]; [exists []; auto |].
    destruct (Hx n d) as (x' & E1 & E2 & E3). destruct IH as (r' & F1 & F2 & F3).
    exists (x' :: r'). cbn [map_opt map] in *. rewrite E1, F1. cbn [map].
    rewrite E2, F2. split; [reflexivity |]. split; [reflexivity |]. now rewrite E3, F3. }
  assert (UU : forall d m n i, upr (d + m) (Nat.add n) i = upr m (upr d (Nat.add n)) i).
  { intros d m n i. unfold upr. ltb_cases; lia. }
  induction e as [a | a s | a f r IHf Hr | a f r IHf Hr | a i IH | a i | a o l IH Hl | a ns i IH | a nm x y IHx IHy] using nexpr_ind';
    intros n d; cbn [rename_vars erase lren map].
  - eexists. split; [reflexivity |]. split; reflexivity.
  - eexists. split; [reflexivity |]. split; reflexivity.
  - destruct (IHf n d) as (f' & -> & E2 & E3). destruct (HP n d r Hr) as (r' & -> & F2 & F3).
    eexists. split; [reflexivity |]. cbn [rename_vars erase]. now rewrite E2, F2, E3, F3.
  - destruct (IHf n d) as (f' & -> & E2 & E3). destruct (HP n d r Hr) as (r' & -> & F2 & F3).
    eexists. split; [reflexivity |]. cbn [rename_vars erase]. now rewrite E2, F2, E3, F3.
  - destruct (IH n d) as (f' & -> & E2 & E3).
    eexists. split; [reflexivity |]. cbn [rename_vars erase]. now rewrite E2, E3.
  - unfold rename_index. destruct (Nat.leb_spec d i); cbn [option_map].
    + eexists. split; [reflexivity |]. cbn [erase rename_vars]. unfold rename_index.
      split; [f_equal; unfold upr; ltb_cases; lia |].
      replace (Nat.leb d (i + n)) with true by (symmetry; apply Nat.leb_le; lia).
      replace (Nat.leb n (i + n)) with true by (symmetry; apply Nat.leb_le; lia).
      cbn. do 2 f_equal. lia.
    + eexists. split; [reflexivity |]. cbn [erase rename_vars]. unfold rename_index.
      split; [f_equal; unfold upr; ltb_cases; lia |].
      now replace (Nat.leb d i) with false by (symmetry; apply Nat.leb_gt; lia).
  - destruct (IH n d) as (f' & -> & E2 & E3). destruct (HL n d l Hl) as (r' & -> & F2 & F3).
    eexists. split; [reflexivity |]. cbn [rename_vars erase]. now rewrite E2, F2, E3, F3.
  - destruct (IH n (d + length ns)) as (f' & -> & E2 & E3).
    eexists. split; [reflexivity |]. cbn [rename_vars erase]. rewrite E2, E3.
    split; [| reflexivity]. f_equal. apply lren_ext. intros j. apply UU.
  - destruct (IHx n d) as (x' & -> & E2 & E3). destruct (IHy n (d + 1)) as (y' & -> & F2 & F3).
    eexists. split; [reflexivity |]. cbn [rename_vars erase]. rewrite E2, F2, E3, F3.
    split; [| reflexivity]. f_equal. apply lren_ext. intros j. apply UU.
Qed.
Lemma deepen0 n e : exists e',
  rename_vars Deepen n 0 e = Some e' /\ erase e' = lren (Nat.add n) (erase e)
  /\ rename_vars Shallow n 0 e' = Some e.
Proof.
  destruct (deepen_ok e n 0) as (e' & H1 & H2 & H3). exists e'. split; [assumption |]. split; [| assumption].
  rewrite H2. apply lren_ext. intros i. unfold upr. ltb_cases; [lia |]. cbn. f_equal. lia.
Qed.

(** ** Substitute *)
Lemma ups_at_var n k x i : at_var (k + n) (lren (Nat.add n) x) i = ups n (at_var k x) i.
Proof.
  unfold at_var, ups. destruct (Nat.compare_spec i (k + n)); destruct (Nat.ltb_spec i n); try lia.
  - replace (i - n) with k by lia. now rewrite Nat.compare_refl.
  - reflexivity.
  - destruct (Nat.compare_spec (i - n) k); try lia. cbn. f_equal. lia.
  - destruct (Nat.compare_spec (i - n) k); try lia. cbn. f_equal. lia.
Qed.
Lemma substitute_ok e : forall k x, exists e',
  substitute e (Subst k x) = Some (e', Subst k x) /\ erase e' = lsub (at_var k (erase x)) (erase e).
Proof.
  set (P := fun e => forall k x, exists e',
    substitute e (Subst k x) = Some (e', Subst k x) /\ erase e' = lsub (at_var k (erase x)) (erase e)).
  assert (HP : forall k x (r : list (span * nexpr)), Forall (fun y => P (snd y)) r ->
    exists r', fold_list (fun (y : span * nexpr) st =>
        match substitute (snd y) st with None => None | Some (z, st') => Some ((fst y, z), st') end) r (Subst k x)
      = Some (r', Subst k x)
      /\ map (fun y => erase (snd y)) r' = map (lsub (at_var k (erase x))) (map (fun y => erase (snd y)) r)).
  { intros k x r H. induction H as [| [p y] r Hy _ IH]; [exists []; auto |].
    destruct (Hy k x) as (y' & E1 & E2). destruct IH as (r' & F1 & F2).
    exists ((p, y') :: r'). cbn [fold_list fst snd map] in *. rewrite E1. cbn [fst snd]. rewrite F1. cbn [map fst snd].
    now rewrite E2, F2. }
  assert (HL : forall k x (r : list nexpr), Forall P r ->
    exists r', fold_list substitute r (Subst k x) = Some (r', Subst k x)
      /\ map erase r' = map (lsub (at_var k (erase x))) (map erase r)).
  { intros k x r H. induction H as [| y r Hy _ IH]; [exists []; auto |].
    destruct (Hy k x) as (y' & E1 & E2). destruct IH as (r' & F1 & F2).
    exists (y' :: r'). cbn [fold_list map] in *. rewrite E1, F1. cbn [map]. now rewrite E2, F2. }
  assert (HW : forall i, P i -> forall n k x, exists i',
    with_args n (substitute i) (Subst k x) = Some (i', Subst k x)
    /\ erase i' = lsub (ups n (at_var k (erase x))) (erase i)).
  { intros i Hi n k x. unfold with_args. cbn [s_expr s_index].
    destruct (deepen0 n x) as (x' & -> & Ex & Sx). destruct (Hi (k + n) x') as (i' & -> & Ei). cbn [s_expr s_index].
    rewrite Sx. replace (Nat.leb n (k + n)) with true by (symmetry; apply Nat.leb_le; lia).
    exists i'. split; [do 3 f_equal; lia |]. rewrite Ei, Ex. apply lsub_ext. intros j. apply ups_at_var. }
  change (P e).
  induction e as [a | a s | a f r IHf Hr | a f r IHf Hr | a i IH | a i | a o l IH Hl | a ns i IH | a nm y z IHy IHz] using nexpr_ind';
    intros k x; cbn [substitute erase lsub map].
  - eexists; split; reflexivity.
  - eexists; split; reflexivity.
  - destruct (IHf k x) as (f' & -> & E). destruct (HP k x r Hr) as (r' & F & G). rewrite F.
    eexists; split; [reflexivity |]. cbn [erase]. now rewrite E, G.
  - destruct (IHf k x) as (f' & -> & E). destruct (HP k x r Hr) as (r' & F & G). rewrite F.
    eexists; split; [reflexivity |]. cbn [erase]. now rewrite E, G.
  - destruct (IH k x) as (f' & -> & E).
    eexists; split; [reflexivity |]. cbn [erase]. now rewrite E.
  - cbn [s_index s_expr]. destruct (Nat.eqb_spec i k) as [-> | Hne].
    + eexists; split; [reflexivity |]. rewrite erase_set_name. unfold at_var. now rewrite Nat.compare_refl.
    + eexists; split; [reflexivity |]. cbn [erase]. unfold at_var.
      destruct (Nat.compare_spec i k); destruct (Nat.ltb_spec k i); try lia; reflexivity.
  - destruct (IH k x) as (f' & -> & E). destruct (HL k x l Hl) as (r' & F & G). rewrite F.
    eexists; split; [reflexivity |]. cbn [erase]. now rewrite E, G.
  - destruct (HW i IH (length ns) k x) as (i' & F & G). rewrite F.
    eexists; split; [reflexivity |]. cbn [erase]. now rewrite G.
  - destruct (IHy k x) as (y' & -> & E). destruct (HW z IHz 1 k x) as (z' & F & G). rewrite F.
    eexists; split; [reflexivity |]. cbn [erase]. now rewrite E, G.
Qed.

(** ** The loop of a call *)
Lemma bind_args_ok : forall args ns inner, length ns = length args -> exists out,
  bind_args (rev (combine (combine (seq 0 (length args)) args) ns)) inner = Some out
  /\ erase out = lsub (inst (map erase args)) (erase inner).
Proof.
  induction args as [| arg args IH] using rev_ind; intros ns inner Hl.
  - destruct ns; [| discriminate Hl]. exists inner. split; [reflexivity |]. cbn.
    symmetry. apply lsub_id. intros i. unfold inst. destruct i; cbn; reflexivity.
  - rewrite app_length in Hl. cbn in Hl.
    destruct (exists_last (l := ns)) as (ns' & nm & ->); [intros ->; cbn in Hl; lia |].
    rewrite app_length in Hl. cbn in Hl. assert (Hl' : length ns' = length args) by lia.
    assert (HC : forall {A B} (l1 l2 : list A) (m1 m2 : list B), length l1 = length m1 ->
       combine (l1 ++ l2) (m1 ++ m2) = combine l1 m1 ++ combine l2 m2).
    { intros A B l1. induction l1 as [| z l1 IHl]; intros l2 [| w m1] m2 HH; try discriminate HH; cbn; auto.
      f_equal. apply IHl. now injection HH. }
    rewrite app_length. cbn [length]. rewrite seq_app. cbn [seq plus].
    rewrite HC by now rewrite seq_length. rewrite HC by now rewrite combine_length, seq_length, Nat.min_id.
    cbn [combine]. rewrite rev_app_distr. cbn [rev app bind_args].
    destruct (deepen0 (length args) (set_name (merge (e_name arg) (Some nm)) arg)) as (arg' & -> & Ea & _).
    destruct (substitute_ok inner 0 arg') as (out1 & -> & E1).
    destruct (IH ns' out1 Hl') as (out & E & F). exists out. split; [exact E |].
    rewrite F, E1, Ea, erase_set_name, map_app. cbn [map]. now rewrite inst_snoc, map_length.
Qed.

(** ** Reduce computes the evaluation of [SpecBeta] *)
Scheme evals_mind := Minimality for evals Sort Prop
with evals_list_mind := Minimality for evals_list Sort Prop.
Combined Scheme evals_both from evals_mind, evals_list_mind.

Definition reduce_spec (r : res nexpr red_error) (e : lexpr) : Prop :=
  match r with
  | Ok v => evals e (erase v)
  | Err x => fails e (failure_of x)
  | Panic => False
  | OutOfFuel => True
  end.
Definition list_spec {A} (g : A -> lexpr) (r : res (list A) red_error) (l : list lexpr) : Prop :=
  match r with
  | Ok v => evals_list l (map g v)
  | Err x => exists l1 l1' e l2, l = l1 ++ e :: l2 /\ evals_list l1 l1' /\ fails e (failure_of x)
  | Panic => False
  | OutOfFuel => True
  end.
Lemma reduce_list_spec {A} (f : A -> res A red_error) (g : A -> lexpr) l :
  (forall x, match f x with
             | Ok v => evals (g x) (g v) | Err y => fails (g x) (failure_of y) | Panic => False | OutOfFuel => True end) ->
  list_spec g (reduce_list f l) (map g l).
Proof.
  intros Hf. induction l as [| x l IH]; [constructor |]. cbn [reduce_list map].
  specialize (Hf x). destruct (f x) as [v | y | |]; try exact Hf; try (now cbn).
  - destruct (reduce_list f l) as [vs | y | |]; cbn in IH |- *; auto.
    + now constructor.
    + destruct IH as (l1 & l1' & e & l2 & -> & He & Hx). exists (g x :: l1), (g v :: l1'), e, l2.
      split; [reflexivity |]. split; [now constructor | assumption].
  - cbn. exists [], [], (g x), (map g l). split; [reflexivity |]. split; [constructor | assumption].
Qed.

Lemma erase_lam e n b : erase e = LLam n b -> exists a ns i, e = ELam a ns i /\ n = length ns /\ b = erase i.
Proof. destruct e; cbn; intros H; try discriminate H. injection H as <- <-. eauto 6. Qed.

Lemma reduce_sound fuel : forall e, reduce_spec (reduce fuel e) (erase e).
Proof.
  induction fuel as [| n IH]; intros e; [exact Logic.I |].
  assert (HP : forall r, list_spec (fun x : span * nexpr => erase (snd x))
      (reduce_list (fun x => res_map (pair (fst x)) (reduce n (snd x))) r) (map (fun x => erase (snd x)) r)).
  { intros r. apply reduce_list_spec. intros [p x]. cbn [fst snd]. specialize (IH x).
    destruct (reduce n x); exact IH. }
  destruct e as [a | a s | a f r | a f r | a i | a i | a o l | a ns i | a nm x y]; cbn [reduce erase].
  - constructor.
  - constructor.
  - cbv zeta. pose proof (IH f) as Hf. destruct (reduce n f) as [f' | x | |]; cbn in Hf |- *; auto.
    + specialize (HP r). destruct (reduce_list _ r) as [r' | x | |]; cbn in HP |- *; auto.
      * constructor. now constructor.
      * destruct HP as (l1 & l1' & e & l2 & -> & He & Hx).
        change (erase f :: l1 ++ e :: l2) with ((erase f :: l1) ++ e :: l2).
        apply fails_cat with (l' := erase f' :: l1'); [now constructor | assumption].
    + apply (fails_cat [] []); [constructor | assumption].
  - cbv zeta. pose proof (IH f) as Hf. destruct (reduce n f) as [f' | x | |]; cbn in Hf |- *; auto.
    + specialize (HP r). destruct (reduce_list _ r) as [r' | x | |]; cbn in HP |- *; auto.
      * constructor. now constructor.
      * destruct HP as (l1 & l1' & e & l2 & -> & He & Hx).
        change (erase f :: l1 ++ e :: l2) with ((erase f :: l1) ++ e :: l2).
        apply fails_alt with (l' := erase f' :: l1'); [now constructor | assumption].
    + apply (fails_alt [] []); [constructor | assumption].
  - pose proof (IH i) as Hi. destruct (reduce n i) as [i' | x | |]; cbn in Hi |- *; auto using fails_fix.
    destruct i' as [b | b s | b f r | b f r | b j | b j | b o l | b ns j | b nm x y]; cbn in Hi |- *;
      try (apply ev_fix_other; [exact Hi | reflexivity]).
    pose proof (IH j) as Hj. destruct (reduce n j) as [j' | x | |]; cbn in Hj |- *; auto.
    + now apply ev_fix with (b := erase j).
    + now apply fails_fix_body with (n := length ns) (b := erase j).
  - constructor.
  - pose proof (IH o) as Hi. destruct (reduce n o) as [i' | x | |]; cbn [reduce_spec res_bind] in Hi |- *; auto using fails_fun.
    destruct i' as [b | b s | b f r | b f r | b j | b j | b o' l' | b ns j | b nm x y]; cbn [reduce_spec erase] in Hi |- *;
      try (apply fails_not_function; [exact Hi | reflexivity]).
    destruct (Nat.eqb_spec (length ns) (length l)) as [E | E].
    + destruct (bind_args_ok l ns j E) as (out & -> & Eo). pose proof (IH out) as Ho.
      destruct (reduce n out) as [out' | x | |]; cbn [reduce_spec res_map] in Ho |- *; auto.
      * rewrite erase_set_ann. apply ev_call with (n := length ns) (b := erase j); auto.
        -- now rewrite map_length.
        -- now rewrite <- Eo.
      * apply fails_body with (n := length ns) (b := erase j); auto.
        -- now rewrite map_length.
        -- now rewrite <- Eo.
    + cbn. apply fails_arity; auto. rewrite map_length. auto.
  - constructor.
  - destruct (substitute_ok y 0 x) as (out & -> & Eo). pose proof (IH out) as Ho.
    assert (Es : erase out = lsub (inst [erase x]) (erase y)).
    { rewrite Eo. apply lsub_ext. intros j. symmetry. apply inst1_at. }
    rewrite Es in Ho.
    destruct (reduce n out) as [out' | z | |]; cbn [reduce_spec res_map] in Ho |- *; auto.
    + rewrite erase_set_ann. now constructor.
    + now constructor.
Qed.

Lemma reduce_call n a on args : reduce (S n) (ECall a on args) =
  res_bind (reduce n on) (fun on' =>
    match on' with
    | ELam b ns inner =>
      if Nat.eqb (length ns) (length args) then
        match bind_args (rev (combine (combine (seq 0 (length args)) args) ns)) inner with
        | None => Panic
        | Some out =>
          res_map (fun out' => set_ann (Ann (merge_all [a_name a; e_name on'; e_name out']) (a_span a)) out')
                  (reduce n out)
        end
      else Err (WrongArgCount on' args (a_span a))
    | _ => Err (CallNotAFunction on' (a_span a))
    end).
Proof. reflexivity. Qed.
Lemma reduce_let n a nm bound body : reduce (S n) (ELet a nm bound body) =
  match substitute body (Subst 0 bound) with
  | None => Panic
  | Some (out, _) =>
    res_map (fun out' => set_ann (Ann (merge (e_name out') (a_name a)) (a_span a)) out') (reduce n out)
  end.
Proof. reflexivity. Qed.

(** ** Fuel *)
Lemma reduce_list_mono {A} (f g : A -> res A red_error) l :
  (forall x, f x <> OutOfFuel -> g x = f x) -> reduce_list f l <> OutOfFuel -> reduce_list g l = reduce_list f l.
Proof.
  intros Hf. induction l as [| x l IH]; cbn; [reflexivity |]. intros Hn.
  destruct (f x) as [v | e | |] eqn:E; try congruence; rewrite (Hf x) by congruence; rewrite E; auto.
  rewrite IH; [reflexivity |]. intros H. rewrite H in Hn. congruence.
Qed.
Lemma reduce_mono_S n : forall e, reduce n e <> OutOfFuel -> reduce (S n) e = reduce n e.
Proof.
  induction n as [| n IH]; intros e Hn; [now elim Hn |].
  assert (HB : forall e (k k' : nexpr -> res nexpr red_error),
    res_bind (reduce n e) k <> OutOfFuel -> (forall v, k v <> OutOfFuel -> k' v = k v) ->
    res_bind (reduce (S n) e) k' = res_bind (reduce n e) k).
  { intros x k k' H Hk. rewrite IH; [| intros E; rewrite E in H; now elim H].
    destruct (reduce n x); cbn in *; auto. }
  assert (HM : forall e (f : nexpr -> nexpr), res_map f (reduce n e) <> OutOfFuel ->
    res_map f (reduce (S n) e) = res_map f (reduce n e)).
  { intros x f H. rewrite IH; [reflexivity |]. intros E. rewrite E in H. now elim H. }
  assert (HP : forall r (f : list (span * nexpr) -> nexpr),
      res_map f (reduce_list (fun x : span * nexpr => res_map (pair (fst x)) (reduce n (snd x))) r) <> OutOfFuel ->
      res_map f (reduce_list (fun x : span * nexpr => res_map (pair (fst x)) (reduce (S n) (snd x))) r)
      = res_map f (reduce_list (fun x : span * nexpr => res_map (pair (fst x)) (reduce n (snd x))) r)).
  { intros r f H. f_equal. apply reduce_list_mono.
    - intros [p x] Hx. cbn [fst snd] in *. rewrite IH; [reflexivity |]. intros E. rewrite E in Hx. now elim Hx.
    - intros E. rewrite E in H. now elim H. }
  destruct e as [a | a s | a f r | a f r | a i | a i | a o l | a ns i | a nm x y]; try reflexivity.
  - change (reduce (S (S n)) (ECat a f r)) with
      (res_bind (reduce (S n) f) (fun f' => res_map (ECat a f') (reduce_list (fun x : span * nexpr => res_map (pair (fst x)) (reduce (S n) (snd x))) r))).
    apply HB; [exact Hn |]. intros v Hv. apply HP, Hv.
  - change (reduce (S (S n)) (EAlt a f r)) with
      (res_bind (reduce (S n) f) (fun f' => res_map (EAlt a f') (reduce_list (fun x : span * nexpr => res_map (pair (fst x)) (reduce (S n) (snd x))) r))).
    apply HB; [exact Hn |]. intros v Hv. apply HP, Hv.
  - change (reduce (S (S n)) (EFix a i)) with
      (res_bind (reduce (S n) i) (fun i' => match i' with
        | ELam b ns inner => res_map (fun inner' => EFix a (ELam b ns inner')) (reduce (S n) inner)
        | _ => Ok (EFix a i') end)).
    apply HB; [exact Hn |]. intros v Hv. destruct v; auto.
  - rewrite reduce_call in Hn |- *. rewrite reduce_call.
    apply HB; [exact Hn |]. intros v Hv. destruct v; auto.
    destruct (Nat.eqb _ _); auto. destruct (bind_args _ _); auto.
  - rewrite reduce_let in Hn |- *. rewrite reduce_let.
    destruct (substitute _ _) as [[out st] |]; auto.
Qed.
Lemma reduce_mono n m e : n <= m -> reduce n e <> OutOfFuel -> reduce m e = reduce n e.
Proof.
  intros H Hn. induction H as [| m H IH]; [reflexivity |]. rewrite reduce_mono_S; [exact IH |]. now rewrite IH.
Qed.

(** ** Every evaluation and every failure is found *)
Notation part n := (fun x : span * nexpr => res_map (pair (fst x)) (reduce n (snd x))).
Notation parts_of r := (map (fun x : span * nexpr => erase (snd x)) r).

Lemma mono_ok n m e v : n <= m -> reduce n e = Ok v -> reduce m e = Ok v.
Proof. intros H E. rewrite (reduce_mono n m e H); congruence. Qed.
Lemma mono_err n m e v : n <= m -> reduce n e = Err v -> reduce m e = Err v.
Proof. intros H E. rewrite (reduce_mono n m e H); congruence. Qed.
Lemma parts_mono n m r : n <= m -> reduce_list (part n) r <> OutOfFuel -> reduce_list (part m) r = reduce_list (part n) r.
Proof.
  intros H Hn. apply reduce_list_mono; [| exact Hn]. intros [p x] Hx. cbn [fst snd] in *.
  rewrite (reduce_mono n m x H); [reflexivity |]. intros E. rewrite E in Hx. now elim Hx.
Qed.
Lemma parts_ok_mono n m r v : n <= m -> reduce_list (part n) r = Ok v -> reduce_list (part m) r = Ok v.
Proof. intros H E. rewrite (parts_mono n m r H); congruence. Qed.

(** The first part separately. *)
Lemma parts_cons n f r v : reduce_list (part n) ((0%N, f) :: r) = Ok v ->
  exists f' r', v = (0%N, f') :: r' /\ reduce n f = Ok f' /\ reduce_list (part n) r = Ok r'.
Proof.
  cbn [reduce_list fst snd]. destruct (reduce n f) as [f' | | |]; cbn [res_map]; try discriminate.
  destruct (reduce_list _ r) as [r' | | |]; try discriminate. intros [= <-]. eauto 6.
Qed.

Ltac lens := rewrite ?map_length in *; auto.

Lemma reduce_complete :
  (forall e w, evals e w -> forall e0, erase e0 = e -> exists n v, reduce n e0 = Ok v /\ erase v = w)
  /\ (forall l l', evals_list l l' -> forall r, parts_of r = l ->
        exists n r', reduce_list (part n) r = Ok r' /\ parts_of r' = l').
Proof.
  apply evals_both; intros.
  - destruct e0; try discriminate H. exists 1. eexists; split; reflexivity.
  - destruct e0; try discriminate H. injection H as <-. exists 1. eexists; split; reflexivity.
  - destruct e0; try discriminate H. injection H as <-. exists 1. eexists; split; reflexivity.
  - destruct e0; try discriminate H. injection H as <- <-. exists 1. eexists; split; reflexivity.
  - destruct e0 as [| | a f r | | | | | |]; try discriminate H1. injection H1 as <-.
    destruct (H0 ((0%N, f) :: r) eq_refl) as (n & v & E & F).
    apply parts_cons in E as (f' & r' & -> & E1 & E2). exists (S n). cbn [reduce]. rewrite E1. cbn [res_bind]. rewrite E2.
    eexists; split; [reflexivity |]. cbn in F |- *. now rewrite F.
  - destruct e0 as [| | | a f r | | | | |]; try discriminate H1. injection H1 as <-.
    destruct (H0 ((0%N, f) :: r) eq_refl) as (n & v & E & F).
    apply parts_cons in E as (f' & r' & -> & E1 & E2). exists (S n). cbn [reduce]. rewrite E1. cbn [res_bind]. rewrite E2.
    eexists; split; [reflexivity |]. cbn in F |- *. now rewrite F.
  - destruct e0 as [| | | | a i | | | |]; try discriminate H3. injection H3 as <-.
    destruct (H0 i eq_refl) as (n1 & v & E & F). apply erase_lam in F as (c & ns & j & -> & -> & ->).
    destruct (H2 j eq_refl) as (n2 & w & G & <-).
    exists (S (max n1 n2)). cbn [reduce]. rewrite (mono_ok n1 _ i _ (Nat.le_max_l _ _) E). cbn [res_bind].
    rewrite (mono_ok n2 _ j _ (Nat.le_max_r _ _) G). eexists; split; reflexivity.
  - destruct e0 as [| | | | a i | | | |]; try discriminate H2. injection H2 as <-.
    destruct (H0 i eq_refl) as (n1 & w & E & <-). exists (S n1). cbn [reduce]. rewrite E. cbn [res_bind].
    destruct w; try discriminate H1; eexists; split; reflexivity.
  - destruct e0 as [| | | | | | a o l | |]; try discriminate H4. injection H4 as <- <-.
    destruct (H0 o eq_refl) as (n1 & w & E & F). apply erase_lam in F as (c & ns & j & -> & -> & ->).
    assert (L : length ns = length l) by lens. destruct (bind_args_ok l ns j L) as (out & B & Eo).
    destruct (H3 out Eo) as (n2 & w & G & <-).
    exists (S (max n1 n2)). rewrite reduce_call. rewrite (mono_ok n1 _ o _ (Nat.le_max_l _ _) E). cbn [res_bind].
    rewrite L, Nat.eqb_refl, B. rewrite (mono_ok n2 _ out _ (Nat.le_max_r _ _) G).
    eexists; split; [reflexivity | apply erase_set_ann].
  - destruct e0 as [| | | | | | | | a nm d y]; try discriminate H1. injection H1 as <- <-.
    destruct (substitute_ok y 0 d) as (out & B & Eo).
    assert (Es : erase out = lsub (inst [erase d]) (erase y)).
    { rewrite Eo. apply lsub_ext. intros j. symmetry. apply inst1_at. }
    destruct (H0 out Es) as (n & w & G & <-). exists (S n). rewrite reduce_let, B, G.
    eexists; split; [reflexivity | apply erase_set_ann].
  - destruct r; try discriminate H. exists 0, []. auto.
  - destruct r as [| [p y] r]; try discriminate H3. injection H3 as <- <-.
    destruct (H0 y eq_refl) as (n1 & w & E & <-). destruct (H2 r eq_refl) as (n2 & r' & F & <-).
    exists (max n1 n2), ((p, w) :: r'). split; [| reflexivity]. cbn [reduce_list fst snd].
    rewrite (mono_ok n1 _ y _ (Nat.le_max_l _ _) E). cbn [res_map].
    now rewrite (parts_ok_mono n2 _ r _ (Nat.le_max_r _ _) F).
Qed.
Lemma reduce_evals e w : evals (erase e) w -> exists n v, reduce n e = Ok v /\ erase v = w.
Proof. intros H. now apply (proj1 reduce_complete) with (e := erase e). Qed.
Lemma reduce_evals_list r l' : evals_list (parts_of r) l' -> exists n r', reduce_list (part n) r = Ok r' /\ parts_of r' = l'.
Proof. intros H. now apply (proj2 reduce_complete) with (l := parts_of r). Qed.

Lemma parts_app_err n r1 p e r2 r1' x : reduce_list (part n) r1 = Ok r1' -> reduce n e = Err x ->
  reduce_list (part n) (r1 ++ (p, e) :: r2) = Err x.
Proof.
  intros H1 H2. revert r1' H1. induction r1 as [| [q y] r1 IH]; intros r1' H1; cbn [app reduce_list fst snd].
  - now rewrite H2.
  - cbn [reduce_list fst snd] in H1. destruct (reduce n y); cbn [res_map] in *; try discriminate H1.
    destruct (reduce_list _ r1); try discriminate H1. now rewrite (IH _ eq_refl).
Qed.
Lemma parts_err l l' e r2 x r : evals_list l l' -> r = l ++ e :: r2 ->
  (forall e0, erase e0 = e -> exists n y, reduce n e0 = Err y /\ failure_of y = x) ->
  forall ps, parts_of ps = r -> exists n y, reduce_list (part n) ps = Err y /\ failure_of y = x.
Proof.
  intros Hl -> He ps Hps. apply map_eq_app in Hps as (r1 & r3 & -> & <- & H3).
  destruct r3 as [| [p e0] r3]; [discriminate H3 |]. injection H3 as <- _.
  destruct (He e0 eq_refl) as (n1 & y & E & F).
  destruct (reduce_evals_list r1 l' Hl) as (n2 & r1' & G & _).
  exists (max n1 n2), y. split; [| exact F]. eapply parts_app_err.
  - exact (parts_ok_mono n2 _ r1 _ (Nat.le_max_r _ _) G).
  - exact (mono_err n1 _ e0 _ (Nat.le_max_l _ _) E).
Qed.
Lemma parts_cons_err n f r y : reduce_list (part n) ((0%N, f) :: r) = Err y ->
  reduce n f = Err y \/ (exists f', reduce n f = Ok f') /\ reduce_list (part n) r = Err y.
Proof.
  cbn [reduce_list fst snd]. destruct (reduce n f) as [f' | | |]; cbn [res_map]; try discriminate; [| intros [= ->]; now left].
  destruct (reduce_list _ r) as [r' | | |]; try discriminate. intros [= <-]. right. eauto.
Qed.

Lemma reduce_fails e x : fails e x -> forall e0, erase e0 = e -> exists n y, reduce n e0 = Err y /\ failure_of y = x.
Proof.
  induction 1; intros e0 He.
  - destruct e0 as [| | | | | | a o l | |]; try discriminate He. injection He as <- <-.
    destruct (reduce_evals o _ H) as (n & w & E & <-). exists (S n). rewrite reduce_call, E. cbn [res_bind].
    destruct w; try discriminate H0; eexists; split; reflexivity.
  - destruct e0 as [| | | | | | a o l | |]; try discriminate He. injection He as <- <-.
    destruct (reduce_evals o _ H) as (k & w & E & F). apply erase_lam in F as (c & ns & j & -> & -> & ->).
    exists (S k). rewrite reduce_call, E. cbn [res_bind].
    destruct (Nat.eqb_spec (length ns) (length l)) as [L | L]; [lens; congruence |].
    eexists; split; reflexivity.
  - destruct e0 as [| | | | | | a o l | |]; try discriminate He. injection He as <- <-.
    destruct (IHfails o eq_refl) as (n & y & E & F). exists (S n), y. rewrite reduce_call, E. split; [reflexivity | exact F].
  - destruct e0 as [| | | | | | a o l | |]; try discriminate He. injection He as <- <-.
    destruct (reduce_evals o _ H) as (n1 & w & E & F). apply erase_lam in F as (c & ns & j & -> & -> & ->).
    assert (L : length ns = length l) by lens. destruct (bind_args_ok l ns j L) as (out & B & Eo).
    destruct (IHfails out Eo) as (n2 & y & G & Hy).
    exists (S (max n1 n2)), y. split; [| exact Hy]. rewrite reduce_call.
    rewrite (mono_ok n1 _ o _ (Nat.le_max_l _ _) E). cbn [res_bind].
    rewrite L, Nat.eqb_refl, B. now rewrite (mono_err n2 _ out _ (Nat.le_max_r _ _) G).
  - destruct e0 as [| | | | | | | | a nm dd y]; try discriminate He. injection He as <- <-.
    destruct (substitute_ok y 0 dd) as (out & B & Eo).
    assert (Es : erase out = lsub (inst [erase dd]) (erase y)).
    { rewrite Eo. apply lsub_ext. intros j. symmetry. apply inst1_at. }
    destruct (IHfails out Es) as (n & z & G & Hy). exists (S n), z. split; [| exact Hy]. now rewrite reduce_let, B, G.
  - destruct e0 as [| | a f ps | | | | | |]; try discriminate He.
    assert (Hp : parts_of ((0%N, f) :: ps) = l ++ e :: r) by (now injection He).
    destruct (parts_err l l' e r x (l ++ e :: r) H eq_refl IHfails _ Hp) as (n & y & E & F).
    exists (S n), y. split; [| exact F]. cbn [reduce]. apply parts_cons_err in E as [-> | ([f' ->] & E)]; [reflexivity |].
    cbn [res_bind]. now rewrite E.
  - destruct e0 as [| | | a f ps | | | | |]; try discriminate He.
    assert (Hp : parts_of ((0%N, f) :: ps) = l ++ e :: r) by (now injection He).
    destruct (parts_err l l' e r x (l ++ e :: r) H eq_refl IHfails _ Hp) as (n & y & E & F).
    exists (S n), y. split; [| exact F]. cbn [reduce]. apply parts_cons_err in E as [-> | ([f' ->] & E)]; [reflexivity |].
    cbn [res_bind]. now rewrite E.
  - destruct e0 as [| | | | a i | | | |]; try discriminate He. injection He as <-.
    destruct (IHfails i eq_refl) as (n & y & E & F). exists (S n), y. split; [| exact F]. cbn [reduce]. now rewrite E.
  - destruct e0 as [| | | | a i | | | |]; try discriminate He. injection He as <-.
    destruct (reduce_evals i _ H) as (n1 & w & E & F). apply erase_lam in F as (c & ns & j & -> & -> & ->).
    destruct (IHfails j eq_refl) as (n2 & y & G & Hy).
    exists (S (max n1 n2)), y. split; [| exact Hy]. cbn [reduce].
    rewrite (mono_ok n1 _ i _ (Nat.le_max_l _ _) E). cbn [res_bind].
    now rewrite (mono_err n2 _ j _ (Nat.le_max_r _ _) G).
Qed.
