(** * RustFacts: the emitted items do what the table of types does. *)
From Coq Require Import String.
From Verif Require Import ShareFacts InferMore NameFacts.
From Verif Require Export SpecRust.
From Coq Require Import List Permutation.
Open Scope list_scope.

(** ** The table: names and numbers of parts *)
Definition en_shaped (d : table) (en : entry) : Prop :=
  match en_def en with
  | DEps => en_name en = TnEpsilon
  | DLit _ _ => exists s, en_name en = TnIdent s
  | DCat _ parts ids | DAlt parts ids _ _ _ _ => (exists s, en_name en = TnIdent s) /\ length parts = length ids
  | DFix _ => exists s, en_name en = TnIdent s
  | DBox f => f < length d /\ en_name en = TnBox (name_of d f)
  end.
Definition shaped (d : table) : Prop := Forall (en_shaped d) d.

Lemma name_of_app d en i : i < length d -> name_of (d ++ [en]) i = name_of d i.
Proof. intros H. unfold name_of. now rewrite nth_error_app1. Qed.
Lemma shaped_push d en : shaped d -> en_shaped d en -> shaped (d ++ [en]).
Proof.
  intros H He. assert (G : forall x, en_shaped d x -> en_shaped (d ++ [en]) x).
  { intros x. unfold en_shaped. destruct (en_def x); auto. intros [H1 H2]. rewrite app_length, name_of_app by exact H1. split; [lia | exact H2]. }
  apply Forall_app. split; [| constructor; auto]. eapply Forall_impl; [| exact H]. auto.
Qed.
Lemma name_of_fill d i j k : name_of (update i (fun en => Entry (en_name en) (DFix (Some j)) [j]) d) k = name_of d k.
Proof. unfold name_of. rewrite update_nth. destruct (Nat.eqb k i); [destruct (nth_error d k); reflexivity | reflexivity]. Qed.
Lemma shaped_fill d i j : shaped d -> (exists s, name_of d i = TnIdent s) ->
  shaped (update i (fun en => Entry (en_name en) (DFix (Some j)) [j]) d).
Proof.
  intros H [s Hi]. unfold shaped in *. pose proof (name_of_fill d i j) as En.
  rewrite Forall_forall in *. intros x Hx. apply In_nth_error in Hx as [k Hk]. rewrite update_nth in Hk.
  assert (G : forall x, en_shaped d x -> en_shaped (update i (fun en => Entry (en_name en) (DFix (Some j)) [j]) d) x).
  { intros y. unfold en_shaped. destruct (en_def y); auto. intros [H1 H2]. rewrite En, update_length. auto. }
  destruct (Nat.eqb_spec k i) as [Ek | Hne].
  - subst k. unfold name_of in Hi. destruct (nth_error d i) as [en |] eqn:E; [| discriminate]. injection Hk as <-. cbn. exists s. exact Hi.
  - apply G, H. eapply nth_error_In; eauto.
Qed.

Section Gen.
  Variable cs : casing.
  Definition keeps (d d' : table) : Prop := shaped d' /\ length d <= length d' /\ forall i, i < length d -> name_of d' i = name_of d i.
  Lemma keeps_refl d : shaped d -> keeps d d.
  Proof. intros H. split; [exact H |]. split; [lia | auto]. Qed.
  Lemma keeps_trans a b c : keeps a b -> keeps b c -> keeps a c.
  Proof. intros (A1 & A2 & A3) (B1 & B2 & B3). split; [exact B1 |]. split; [lia |]. intros i Hi. rewrite B3 by lia. auto. Qed.
  Lemma keeps_push d en : shaped d -> en_shaped d en -> keeps d (d ++ [en]).
  Proof. intros H He. split; [now apply shaped_push |]. split; [rewrite app_length; lia |]. intros i Hi. now apply name_of_app. Qed.

  Definition sspec (e : texpr) : Prop := forall b b' id, shaped (data b) -> gen cs e b = Some (b', id) -> keeps (data b) (data b').
  Lemma gen_list_shaped l : Forall sspec l -> forall b b' ids, shaped (data b) -> gen_list (gen cs) l b = Some (b', ids) -> keeps (data b) (data b').
  Proof.
    induction 1 as [|e l He Hl IH]; intros b b' ids I E; cbn [gen_list] in E.
    - injection E as <- <-. now apply keeps_refl.
    - destruct (gen cs e b) as [[b1 id]|] eqn:E1; [|discriminate].
      destruct (gen_list (gen cs) l b1) as [[b2 ids2]|] eqn:E2; [|discriminate]. injection E as <- <-.
      pose proof (He _ _ _ I E1) as K. eapply keeps_trans; [exact K |]. eapply IH; [apply K | exact E2].
  Qed.
  Theorem gen_shaped e : sspec e.
  Proof.
    induction e using texpr_ind'; intros b b' id I E.
    - cbn in E. unfold gen_epsilon in E. destruct (eps_id b); injection E as <- <-; [now apply keeps_refl|]. apply keeps_push; [exact I|reflexivity].
    - cbn in E. unfold gen_literal in E. destruct (map_get rstr_eqb s (lit_map b)); [injection E as <- <-; now apply keeps_refl|].
      destruct (new_type_name _ _ _ _) as [[[x ident] b1]|] eqn:En; [|discriminate]. apply new_type_name_inv in En as (-> & nm & ->).
      destruct s as [|c [|c' s]]; injection E as <- <-; (apply keeps_push; [exact I|cbn; eauto]).
    - rewrite gen_cat_eq in E. destruct (gen_list (gen cs) _ b) as [[b1 ids]|] eqn:El; [|discriminate].
      pose proof (gen_list_shaped _ H _ _ _ I El) as K. pose proof (gen_list_length cs _ _ _ _ El) as Hlen. clear El. eapply keeps_trans; [exact K |]. destruct K as [I1 _].
      unfold gen_cat in E. destruct (map_get nats_eqb ids (cat_map b1)); [injection E as <- <-; now apply keeps_refl|].
      destruct (new_type_name _ _ _ _) as [[[x ident] b2]|] eqn:En; [|discriminate].
      apply new_type_name_inv in En as (-> & nm & ->). destruct (ids_ok _ _); [|discriminate].
      destruct (name_parts _ _ _ _ _) as [parts|] eqn:Ep; [|discriminate]. injection E as <- <-. apply keeps_push; [exact I1|]. cbn.
      split; [eauto |]. apply name_parts_length in Ep. rewrite map_length in Ep. congruence.
    - rewrite gen_alt_eq in E. destruct (gen_list (gen cs) _ b) as [[b1 ids]|] eqn:El; [|discriminate].
      pose proof (gen_list_shaped _ H _ _ _ I El) as K. pose proof (gen_list_length cs _ _ _ _ El) as Hlen. clear El. eapply keeps_trans; [exact K |]. destruct K as [I1 _].
      unfold gen_alt in E. destruct (map_get nats_eqb ids (alt_map b1)); [injection E as <- <-; now apply keeps_refl|].
      destruct (new_type_name _ _ _ _) as [[[x ident] b2]|] eqn:En; [|discriminate].
      apply new_type_name_inv in En as (-> & nm & ->). destruct (ids_ok _ _); [|discriminate].
      destruct (name_parts _ _ _ _ _) as [parts|] eqn:Ep; [|discriminate]. injection E as <- <-.
      assert (Hp : length parts = length ids) by (apply name_parts_length in Ep; rewrite map_length in Ep; congruence).
      destruct (forallb _ ids); (apply keeps_push; [exact I1|]; cbn; eauto).
    - cbn [gen] in E. destruct (map_get texpr_eqb e (fix_map b)); [injection E as <- <-; now apply keeps_refl|].
      destruct (new_type_name _ _ _ _) as [[[x ident] b2]|] eqn:En; [|discriminate].
      apply new_type_name_inv in En as (-> & nm & ->). cbv zeta in E.
      destruct (gen cs e _) as [[b4 j]|] eqn:E4; [|discriminate].
      assert (K0 : keeps (data b) (data b ++ [Entry (TnIdent ident) (DFix None) []])) by (apply keeps_push; [exact I | cbn; eauto]).
      assert (K1 : keeps (data b ++ [Entry (TnIdent ident) (DFix None) []]) (data b4)) by (refine (IHe _ _ _ _ E4); exact (proj1 K0)). cbn [data set_context] in E. destruct (nth_error (data b4) j); [|discriminate]. destruct (Nat.ltb _ _); [|discriminate].
      injection E as <- <-. eapply keeps_trans; [exact K0 |]. eapply keeps_trans; [exact K1 |]. destruct K1 as (S1 & S2 & S3). split; [| split].
      + apply shaped_fill; [exact S1 |]. exists ident. rewrite S3; cbn; [unfold name_of; now rewrite nth_error_app2, Nat.sub_diag by lia | rewrite app_length; cbn; lia].
      + cbn. now rewrite update_length.
      + intros i _. apply name_of_fill.
    - cbn [gen] in E. unfold gen_variable in E. destruct (nth_error (context b) i) as [f|]; [|discriminate].
      destruct (map_get Nat.eqb f (var_map b)); [injection E as <- <-; now apply keeps_refl|].
      destruct (nth_error (data b) f) as [fe |] eqn:Ef; [|discriminate]. injection E as <- <-. apply keeps_push; [exact I|]. cbn.
      split; [apply nth_error_Some; congruence |]. unfold name_of. now rewrite Ef.
  Qed.
  Corollary generate_shaped e b id : generate cs e = Some (b, id) -> shaped (data b).
  Proof. intros E. eapply gen_shaped; [| exact E]. constructor. Qed.
End Gen.

(** ** Lists *)
Lemma get_in {V} (k : rstr) (v : V) l : NoDup (map fst l) -> In (k, v) l -> map_get rstr_eqb k l = Some v.
Proof.
  induction l as [| [k' v'] l IH]; cbn; intros Hn Hi; [contradiction |]. inversion Hn as [| ? ? H1 H2]; subst.
  destruct Hi as [E | Hi]; [injection E as -> ->; now rewrite rstr_eqb_refl |].
  destruct (rstr_eqb k k') eqn:E; [| auto]. apply rstr_eqb_eq in E. subst k'. exfalso. apply H1. apply in_map_iff. exists (k, v). auto.
Qed.
Lemma in_items {A} (sel : item -> option (rstr * A)) p it x : In it p -> sel it = Some x -> In x (items sel p).
Proof.
  induction p as [| i p IH]; cbn; [contradiction |]. intros [-> | H] E; [rewrite E; left; reflexivity |].
  destruct (sel i); [right |]; auto.
Qed.
Lemma items_in {A} (sel : item -> option (rstr * A)) p x : In x (items sel p) -> exists it, In it p /\ sel it = Some x.
Proof.
  induction p as [| i p IH]; cbn; [contradiction |]. destruct (sel i) as [y |] eqn:E.
  - intros [-> | H]; [exists i; auto |]. destruct (IH H) as (it & H1 & H2). exists it. auto.
  - intros H. destruct (IH H) as (it & H1 & H2). exists it. auto.
Qed.
Lemma items_app {A} (sel : item -> option (rstr * A)) p q : items sel (p ++ q) = items sel p ++ items sel q.
Proof. induction p as [| i p IH]; [reflexivity |]. cbn. destruct (sel i); cbn; now rewrite IH. Qed.
Lemma map_fst_combine {A B} (l : list A) (l' : list B) : length l = length l' -> map fst (combine l l') = l.
Proof. revert l'. induction l as [| x l IH]; intros [| y l'] H; try discriminate; [reflexivity |]. cbn. f_equal. apply IH. cbn in H. lia. Qed.
Lemma map_snd_combine {A B} (l : list A) (l' : list B) : length l = length l' -> map snd (combine l l') = l'.
Proof. revert l'. induction l as [| x l IH]; intros [| y l'] H; try discriminate; [reflexivity |]. cbn. f_equal. apply IH. cbn in H. lia. Qed.
Lemma combine_at {A B} (l : list A) (l' : list B) k x y : nth_error l k = Some x -> nth_error l' k = Some y -> In (x, y) (combine l l').
Proof.
  revert l l'. induction k as [| k IH]; intros [| a l] [| b l'] H H'; try discriminate; cbn in *; [injection H as ->; injection H' as ->; auto |]. right. auto.
Qed.
Lemma Forall2_nth {A B} (R : A -> B -> Prop) l l' : length l = length l' ->
  (forall k a b, nth_error l k = Some a -> nth_error l' k = Some b -> R a b) -> Forall2 R l l'.
Proof.
  revert l'. induction l as [| a l IH]; intros [| b l'] Hl H; try discriminate; constructor; [exact (H 0 a b eq_refl eq_refl) |].
  apply IH; [cbn in Hl; lia |]. intros k. exact (H (S k)).
Qed.
Lemma number_parts_length w n : length (number_parts w n) = n.
Proof. unfold number_parts. now rewrite map_length, seq_length. Qed.
Lemma number_parts_nodup w n : NoDup (number_parts w n).
Proof.
  unfold number_parts. apply FinFun.Injective_map_NoDup; [| apply seq_NoDup]. intros i j E. apply app_inv_head in E. now apply dec_inj.
Qed.

(** ** Runs of the items *)
Section Sim.
  Variable d : table.
  Variable p : program.
  Hypothesis Hs : shaped d.
  Hypothesis Hin : forall i it, In it (items_at d i) -> In it p.
  Hypothesis Hwf : well_formed p.
  Variable f : nat -> ty.
  Hypothesis Hok : forall i, i < length d -> flat_ok d f i.

  Definition same (i : nat) (x : res tree take_error * iw) (y : res rval take_error * iw) : Prop :=
    snd x = snd y /\
    match fst x, fst y with
    | Ok t, Ok v => denotes d i t v
    | Err e, Err e' => e = e'
    | Panic, Panic => True
    | OutOfFuel, OutOfFuel => True
    | _, _ => False
    end.

  Lemma type_at i s sh : In (IType s sh) (items_at d i) -> find_type p s = Some sh.
  Proof. intros H. apply get_in; [apply (wf_types p Hwf) |]. apply (in_items sel_type p _ _ (Hin _ _ H) eq_refl). Qed.
  Lemma parse_at i s x : In (IParse s x) (items_at d i) -> find_parse p s = Some x.
  Proof. intros H. apply get_in; [apply (wf_parses p Hwf) |]. apply (in_items sel_parse p _ _ (Hin _ _ H) eq_refl). Qed.
  Lemma display_at i s x : In (IDisplay s x) (items_at d i) -> find_display p s = Some x.
  Proof. intros H. apply get_in; [apply (wf_displays p Hwf) |]. apply (in_items sel_display p _ _ (Hin _ _ H) eq_refl). Qed.
  Lemma char_at i s x : In (IChar s x) (items_at d i) -> find_char p s = Some x.
  Proof. intros H. apply get_in; [apply (wf_chars p Hwf) |]. apply (in_items sel_char p _ _ (Hin _ _ H) eq_refl). Qed.
  Lemma names_at i s sh : In (IType s sh) (items_at d i) -> NoDup (shape_names sh).
  Proof. intros H. apply (wf_shapes p Hwf s). apply (in_items sel_type p _ _ (Hin _ _ H) eq_refl). Qed.

  (** [let]s *)
  Lemma run_lets_same n ty (xs : list rstr) (ids : list nat) : Forall2 (fun x i => ty x = Some (name_of d i)) xs ids ->
    (forall i st, In i ids -> same i (take d n i st) (rtake p n (name_of d i) st)) -> forall env st,
    snd (take_seq (take d n) ids st) = snd (run_lets (rtake p n) ty xs env st) /\
    match fst (take_seq (take d n) ids st), fst (run_lets (rtake p n) ty xs env st) with
    | Ok ts, Ok env' => exists vs, denotes_all d ids ts vs /\ env' = rev (combine xs vs) ++ env
    | Err e, Err e' => e = e'
    | Panic, Panic => True
    | OutOfFuel, OutOfFuel => True
    | _, _ => False
    end.
  Proof.
    induction 1 as [| x i xs ids Hx Hxs IH]; intros Ht env st; cbn [take_seq run_lets].
    - cbn. split; [reflexivity |]. exists []. split; [constructor | reflexivity].
    - rewrite Hx. pose proof (Ht i st (or_introl eq_refl)) as Hi. destruct (take d n i st) as [r st1]. destruct (rtake p n (name_of d i) st) as [r' st1'].
      destruct Hi as [E Hi]. cbn in E, Hi. subst st1'. destruct r as [t | e | |], r' as [v | e' | |]; try contradiction; cbn; auto.
      destruct (IH (fun j st H => Ht j st (or_intror H)) ((x, v) :: env) st1) as [E1 E2].
      destruct (take_seq (take d n) ids st1) as [rs st2]. destruct (run_lets (rtake p n) ty xs ((x, v) :: env) st1) as [rs' st2']. cbn in *. subst st2'. split; [reflexivity |].
      destruct rs as [ts | | |], rs' as [env' | | |]; try contradiction; cbn; auto. destruct E2 as (vs & H1 & ->). exists (v :: vs). split; [constructor; assumption |].
      cbn. now rewrite <- app_assoc.
  Qed.
  Lemma denotes_all_length ids ts vs : denotes_all d ids ts vs -> length vs = length ids /\ length ts = length ids.
  Proof. induction 1; cbn; lia. Qed.
  Lemma env_gets (xs : list rstr) (vs : list rval) : NoDup xs -> length xs = length vs -> Forall2 (fun x v => map_get rstr_eqb x (rev (combine xs vs)) = Some v) xs vs.
  Proof.
    intros Hn Hl. apply Forall2_nth; [exact Hl |]. intros k x v Hx Hv. apply get_in.
    - rewrite map_rev. apply NoDup_rev. now rewrite map_fst_combine.
    - rewrite <- in_rev. eapply combine_at; eauto.
  Qed.
  Lemma build_fields_env env parts (xs : list rstr) (vs : list rval) : Forall2 (fun x v => map_get rstr_eqb x env = Some v) xs vs -> length parts = length xs ->
    build_fields env (combine parts xs) = Some (combine (map MName parts) vs).
  Proof.
    intros H. revert parts. induction H as [| x v xs vs Hx H IH]; intros [| q parts] Hl; try discriminate; [reflexivity |].
    cbn. rewrite Hx, IH by (cbn in Hl; lia). reflexivity.
  Qed.
  Lemma build_tuple_env env (xs : list rstr) (vs : list rval) k : Forall2 (fun x v => map_get rstr_eqb x env = Some v) xs vs ->
    build_tuple env k xs = Some (combine (map MIndex (seq k (length xs))) vs).
  Proof.
    intros H. revert k. induction H as [| x v xs vs Hx H IH]; intros k; [reflexivity |]. cbn. rewrite Hx, IH. reflexivity.
  Qed.
  Lemma position_nth xs k x : NoDup xs -> nth_error xs k = Some x -> position x xs = Some k.
  Proof.
    revert k. induction xs as [| y xs IH]; intros [| k] Hn H; try discriminate; cbn in *; [injection H as ->; now rewrite rstr_eqb_refl |].
    inversion Hn as [| ? ? H1 H2]; subst. destruct (rstr_eqb x y) eqn:E; [apply rstr_eqb_eq in E; subst y; exfalso; apply H1; eapply nth_error_In; eauto |]. now rewrite (IH k).
  Qed.
  Lemma nth_map_name ids k i : nth_error ids k = Some i -> nth_error (map (name_of d) ids) k = Some (name_of d i).
  Proof. intros H. now rewrite nth_error_map, H. Qed.

  Lemma infer_fields parts (xs : list rstr) (ids : list nat) : NoDup parts -> NoDup xs -> length parts = length ids -> length xs = length ids ->
    Forall2 (fun x i => infer_let (SFields (combine parts (map (name_of d) ids))) (InFields (combine parts xs)) x = Some (name_of d i)) xs ids.
  Proof.
    intros Hp Hx Hl Hl'. apply Forall2_nth; [exact Hl' |]. intros k x i Hk Hi. cbn.
    destruct (nth_error parts k) as [q |] eqn:Eq; [| apply nth_error_None in Eq; assert (k < length xs) by (apply nth_error_Some; congruence); lia].
    rewrite (get_in x q).
    - apply get_in; [rewrite map_fst_combine by (rewrite map_length; lia); exact Hp |]. eapply combine_at; eauto. now apply nth_map_name.
    - rewrite map_map. cbn. change (map (fun z : rstr * rstr => snd z) (combine parts xs)) with (map snd (combine parts xs)). rewrite map_snd_combine by lia. exact Hx.
    - apply in_map_iff. exists (q, x). split; [reflexivity |]. eapply combine_at; eauto.
  Qed.
  Lemma infer_tuple (xs : list rstr) (ids : list nat) : NoDup xs -> length xs = length ids ->
    Forall2 (fun x i => infer_let (STuple (map (name_of d) ids)) (InTuple xs) x = Some (name_of d i)) xs ids.
  Proof.
    intros Hx Hl. apply Forall2_nth; [exact Hl |]. intros k x i Hk Hi. cbn. rewrite (position_nth xs k x Hx Hk). now apply nth_map_name.
  Qed.

  (** Alternations *)
  Lemma find_arm_map (g : nat -> rstr) c arms : find_arm c (map (fun a => (snd a, g (fst a))) arms) = option_map g (pick_arm c arms).
  Proof. induction arms as [| [k cs] arms IH]; [reflexivity |]. cbn [map find_arm pick_arm fst snd]. destruct (mem_char c cs); [reflexivity | exact IH]. Qed.
  Lemma pick_arm_lt c tys : forall k j, pick_arm c (first_arms k tys) = Some j -> k <= j < k + length tys.
  Proof.
    induction tys as [| t tys IH]; intros k j; cbn; [discriminate |]. destruct (cset_is_empty (first_set t)); cbn.
    - intros H. apply IH in H. lia.
    - destruct (mem_char c (first_set t)); [intros H; injection H as <-; lia |]. intros H. apply IH in H. lia.
  Qed.
  Lemma find_nullable_lt tys : forall k j, find_nullable k tys = Some j -> k <= j < k + length tys.
  Proof.
    induction tys as [| t tys IH]; intros k j; cbn; [discriminate |]. destruct (nullable t); [intros H; injection H as <-; lia |]. intros H. apply IH in H. lia.
  Qed.
  Lemma run_variant_same n i self parts ids a b c conv k st : def_of d i = Some (DAlt parts ids a b c conv) -> self = ident_of (name_of d i) ->
    NoDup parts -> length parts = length ids -> k < length ids ->
    (forall j st, In j ids -> same j (take d n j st) (rtake p n (name_of d j) st)) ->
    same i (take_branch (take d n) ids k st) (run_variant (rtake p n) self (SEnum (combine parts (map (name_of d) ids))) (nth k parts []) st).
  Proof.
    intros Hd -> Hp Hl Hk Ht. unfold take_branch, run_variant. destruct (nth_error ids k) as [j |] eqn:Ej; [| apply nth_error_None in Ej; lia].
    assert (Eq : nth_error parts k = Some (nth k parts [])) by (apply nth_error_nth'; lia).
    rewrite (get_in (nth k parts []) (name_of d j)).
    - pose proof (Ht j st (nth_error_In _ _ Ej)) as Hj. destruct (take d n j st) as [r st1]. destruct (rtake p n (name_of d j) st) as [r' st1'].
      destruct Hj as [E Hj]. cbn in E, Hj. subst st1'. split; [reflexivity |]. destruct r, r'; cbn; try contradiction; auto.
      eapply dn_alt; eauto.
    - rewrite map_fst_combine by (rewrite map_length; lia). exact Hp.
    - eapply combine_at; [exact Eq |]. now apply nth_map_name.
  Qed.

  (** ** [take] *)
  Lemma at_entry i en : nth_error d i = Some en -> def_of d i = Some (en_def en) /\ name_of d i = en_name en /\ en_shaped d en /\ items_at d i = items_of d en /\ i < length d.
  Proof.
    intros E. unfold def_of, name_of, items_at. rewrite E. repeat split; [| apply nth_error_Some; congruence].
    unfold shaped in Hs. rewrite Forall_forall in Hs. apply Hs. eapply nth_error_In; eauto.
  Qed.
  Theorem rtake_same n : forall i st, i < length d -> same i (take d n i st) (rtake p n (name_of d i) st).
  Proof.
    induction n as [| n IH]; intros i st Hi; [split; [reflexivity | exact Logic.I] |].
    destruct (nth_error d i) as [en |] eqn:E; [| apply nth_error_None in E; lia]. destruct (at_entry i en E) as (Hd & Hn & He & Hit & _).
    pose proof (Hok i Hi) as Hf. unfold flat_ok in Hf. rewrite Hd in Hf. cbn [take rtake]. rewrite Hd. unfold en_shaped in He. unfold items_of in Hit.
    destruct (en_def en) as [| s c | named parts ids | parts ids a b cs conv | [j |] | g] eqn:Ed.
    - rewrite Hn, He. split; [reflexivity |]. now constructor.
    - destruct He as [nm He]. rewrite He in Hn, Hit. rewrite Hn. cbn in Hit.
      rewrite (type_at i nm SUnit), (parse_at i nm (TConsume s nm)) by (rewrite Hit; cbn; auto).
      destruct (consume_str s st) as [r st1]. split; [reflexivity |]. destruct r; cbn; auto. pose proof (dn_lit d i s c Hd) as H. rewrite Hn in H. exact H.
    - destruct He as [[nm He] Hl]. rewrite He in Hn, Hit. rewrite Hn. cbn [ident_of] in Hit. destruct Hf as [_ Hf]. rewrite Forall_forall in Hf.
      pose proof (number_parts_nodup (lit "part") (length ids)) as Hv. pose proof (number_parts_length (lit "part") (length ids)) as Hvl.
      destruct named.
      + rewrite (type_at i nm (SFields (combine parts (map (name_of d) ids)))), (parse_at i nm (TLets (number_parts (lit "part") (length ids)) (InFields (combine parts (number_parts (lit "part") (length ids)))))) by (rewrite Hit; cbn; auto).
        assert (Hp : NoDup parts). { pose proof (names_at i nm (SFields (combine parts (map (name_of d) ids)))) as Q. cbn in Q. rewrite map_fst_combine in Q by (rewrite map_length; lia). apply Q. rewrite Hit. cbn. auto. }
        destruct (run_lets_same n _ _ _ (infer_fields parts _ ids Hp Hv Hl Hvl) (fun j st H => IH j st (Hf j H)) [] st) as [E1 E2].
        destruct (take_seq (take d n) ids st) as [r st1]. destruct (run_lets _ _ _ [] st) as [r' st1']. cbn [fst snd] in E1, E2. subst st1'.
        destruct r as [ts | | |], r' as [env | | |]; try contradiction; try (split; [reflexivity | exact E2]). destruct E2 as (vs & Hvs & ->). rewrite app_nil_r.
        destruct (denotes_all_length _ _ _ Hvs) as [L1 _]. cbn [build]. rewrite (build_fields_env _ _ _ _ (env_gets _ vs Hv ltac:(lia))) by lia.
        split; [reflexivity |]. pose proof (dn_cat d i true parts ids ts vs Hd Hvs) as H. rewrite Hn in H. exact H.
      + rewrite (type_at i nm (STuple (map (name_of d) ids))), (parse_at i nm (TLets (number_parts (lit "part") (length ids)) (InTuple (number_parts (lit "part") (length ids))))) by (rewrite Hit; cbn; auto).
        destruct (run_lets_same n _ _ _ (infer_tuple _ ids Hv Hvl) (fun j st H => IH j st (Hf j H)) [] st) as [E1 E2].
        destruct (take_seq (take d n) ids st) as [r st1]. destruct (run_lets _ _ _ [] st) as [r' st1']. cbn [fst snd] in E1, E2. subst st1'.
        destruct r as [ts | | |], r' as [env | | |]; try contradiction; try (split; [reflexivity | exact E2]). destruct E2 as (vs & Hvs & ->). rewrite app_nil_r.
        destruct (denotes_all_length _ _ _ Hvs) as [L1 _]. unfold build. rewrite (build_tuple_env _ _ _ 0 (env_gets _ vs Hv ltac:(lia))), Hvl.
        split; [reflexivity |]. pose proof (dn_cat d i false parts ids ts vs Hd Hvs) as H. rewrite Hn in H. exact H.
    - destruct He as [[nm He] Hl]. rewrite He in Hn, Hit. rewrite Hn. cbn [ident_of] in Hit. destruct Hf as (_ & Hf & Ha & Hb & _). rewrite Forall_forall in Hf.
      rewrite (type_at i nm (SEnum (combine parts (map (name_of d) ids)))), (parse_at i nm (TMatch (map (fun x => (snd x, nth (fst x) parts [])) a) (match b with Some k => OrVariant (nth k parts []) | None => OrError cs end))) by (rewrite Hit; cbn; auto).
      assert (Hp : NoDup parts). { pose proof (names_at i nm (SEnum (combine parts (map (name_of d) ids)))) as Q. cbn in Q. rewrite map_fst_combine in Q by (rewrite map_length; lia). apply Q. rewrite Hit. cbn. auto. }
      assert (Hself : nm = ident_of (name_of d i)) by now rewrite Hn.
      destruct (iw_peek st) as [c st1].
      assert (Ea : match c with Some c => find_arm c (map (fun x => (snd x, nth (fst x) parts [])) a) | None => None end
                   = option_map (fun k => nth k parts []) match c with Some c => pick_arm c a | None => None end).
      { destruct c; [apply (find_arm_map (fun k => nth k parts [])) | reflexivity]. }
      rewrite Ea. destruct (match c with Some c => pick_arm c a | None => None end) as [k |] eqn:Ek; cbn [option_map].
      + eapply run_variant_same; eauto. destruct c as [c |]; [| discriminate]. subst a. apply pick_arm_lt in Ek. rewrite map_length in Ek. lia.
      + destruct b as [k |].
        * eapply run_variant_same; eauto. symmetry in Hb. apply find_nullable_lt in Hb. rewrite map_length in Hb. lia.
        * destruct c; (split; reflexivity).
    - destruct He as [nm He]. rewrite He in Hn, Hit. rewrite Hn. cbn in Hit. rewrite (type_at i nm (SAlias (name_of d j))) by (rewrite Hit; cbn; auto).
      destruct Hf as [_ Hj]. destruct (IH j st Hj) as [E1 E2]. split; [exact E1 |]. destruct (fst (take d n j st)), (fst (rtake p n (name_of d j) st)); auto. now apply dn_fix with j.
    - contradiction.
    - destruct He as [_ He]. rewrite Hn, He. destruct Hf as [_ Hg]. destruct (IH g st Hg) as [E1 E2].
      destruct (take d n g st) as [r st1]. destruct (rtake p n (name_of d g) st) as [r' st1']. cbn [fst snd] in E1, E2. subst st1'. split; [reflexivity |].
      destruct r, r'; cbn; try contradiction; auto. now apply dn_box with g.
  Qed.

  (** ** [to_string] *)
  Lemma member_eqb_eq a b : member_eqb a b = true <-> a = b.
  Proof.
    destruct a as [x | x], b as [y | y]; cbn; try (split; discriminate).
    - rewrite rstr_eqb_eq. split; congruence.
    - rewrite Nat.eqb_eq. split; congruence.
  Qed.
  Lemma member_in m x l : NoDup (map fst l) -> In (m, x) l -> get_member m l = x.
  Proof.
    induction l as [| [m' x'] l IH]; cbn; intros Hn Hi; [contradiction |]. inversion Hn as [| ? ? H1 H2]; subst.
    destruct Hi as [E | Hi]; [injection E as -> ->; now rewrite (proj2 (member_eqb_eq m m) eq_refl) |].
    destruct (member_eqb m m') eqn:E; [| auto]. apply member_eqb_eq in E. subst m'. exfalso. apply H1. apply in_map_iff. exists (m, x). auto.
  Qed.
  Lemma concat_members_all l ms (ws : list rstr) : Forall2 (fun m w => get_member m l = Some w) ms ws -> concat_members l ms = Some (concat ws).
  Proof. induction 1 as [| m w ms ws H _ IH]; [reflexivity |]. cbn. rewrite H, IH. reflexivity. Qed.
  Lemma go_map (l : list (member * rval)) : (fix go (l : list (member * rval)) : list (member * option rstr) :=
            match l with [] => [] | (m, x) :: l' => (m, rprint p x) :: go l' end) l = map (fun x => (fst x, rprint p (snd x))) l.
  Proof. induction l as [| [m x] l IH]; [reflexivity |]. cbn. now rewrite IH. Qed.
  Lemma rprint_members s ms vs ws : find_display p s = Some (FMembers ms) -> NoDup ms -> length ms = length vs ->
    Forall2 (fun v w => rprint p v = Some w) vs ws -> rprint p (VStruct s (combine ms vs)) = Some (concat ws).
  Proof.
    intros Hd Hn Hl H. cbn [rprint]. rewrite Hd, go_map. apply concat_members_all. assert (Hl' : length vs = length ws) by (clear -H; induction H; cbn; lia).
    apply Forall2_nth; [lia |]. intros k m w Hm Hw. apply member_in.
    - rewrite map_map. cbn. change (map (fun x : member * rval => fst x) (combine ms vs)) with (map fst (combine ms vs)). now rewrite map_fst_combine.
    - apply in_map_iff. destruct (nth_error vs k) as [v |] eqn:Ev; [| apply nth_error_None in Ev; assert (k < length ms) by (apply nth_error_Some; congruence); lia].
      exists (m, v). split; [| eapply combine_at; eauto]. cbn. f_equal. clear -H Ev Hw. revert k Ev Hw. induction H as [| x y l l' Hx H IH]; intros [| k] Ev Hw; try discriminate.
      + injection Ev as ->. injection Hw as ->. exact Hx.
      + cbn in *. eauto.
  Qed.
  Lemma existsb_nth (k : nat) (l : list rstr) : k < length l -> existsb (rstr_eqb (nth k l [])) l = true.
  Proof. intros H. apply existsb_exists. exists (nth k l []). split; [now apply nth_In | apply rstr_eqb_refl]. Qed.
  Theorem rprint_yield :
    (forall i t v, denotes d i t v -> rprint p v = Some (yield t)) /\
    (forall ids ts vs, denotes_all d ids ts vs -> Forall2 (fun v w => rprint p v = Some w) vs (map yield ts)).
  Proof.
    apply denotes_mutind.
    - reflexivity.
    - intros i s c Hd. unfold def_of in Hd. destruct (nth_error d i) as [en |] eqn:E; [| discriminate]. injection Hd as Hd. destruct (at_entry i en E) as (_ & Hn & He & Hit & _).
      unfold en_shaped, items_of in *. rewrite Hd in *. cbn [rprint yield]. rewrite Hn. rewrite (display_at i _ (FWrite s)) by (rewrite Hit; cbn; auto). reflexivity.
    - intros i named parts ids ts vs Hd Hall IH. pose proof (denotes_all_length _ _ _ Hall) as [L1 _]. unfold def_of in Hd. destruct (nth_error d i) as [en |] eqn:E; [| discriminate]. injection Hd as Hd. destruct (at_entry i en E) as (_ & Hn & He & Hit & _).
      unfold en_shaped, items_of in *. rewrite Hd in *. rewrite Hn. destruct He as [_ Hl].
      assert (Ey : yield (NCat ts) = concat (map yield ts)) by (cbn [yield]; apply flat_map_concat_map).
      rewrite Ey. destruct named.
      + assert (Hp : NoDup parts). { pose proof (names_at i (ident_of (en_name en)) (SFields (combine parts (map (name_of d) ids)))) as Q. cbn in Q. rewrite map_fst_combine in Q by (rewrite map_length; lia). apply Q. rewrite Hit. cbn. auto. }
        apply rprint_members; [apply (display_at i); rewrite Hit; cbn; auto | | rewrite map_length; lia | exact IH].
        apply FinFun.Injective_map_NoDup; [| exact Hp]. intros x y Q. now injection Q.
      + apply rprint_members; [apply (display_at i); rewrite Hit; cbn; auto | | unfold indexes; rewrite map_length, seq_length; lia | exact IH].
        apply FinFun.Injective_map_NoDup; [| apply seq_NoDup]. intros x y Q. now injection Q.
    - intros i parts ids a b c k j v t x Hd Hk _ IH. unfold def_of in Hd. destruct (nth_error d i) as [en |] eqn:E; [| discriminate]. injection Hd as Hd. destruct (at_entry i en E) as (_ & Hn & He & Hit & _).
      unfold en_shaped, items_of in *. rewrite Hd in *. cbn [rprint yield]. rewrite Hn. rewrite (display_at i _ (FMatch parts)) by (rewrite Hit; cbn; auto).
      rewrite existsb_nth; [exact IH |]. destruct He as [_ Hl]. rewrite Hl. apply nth_error_Some. congruence.
    - auto.
    - auto.
    - constructor.
    - intros. constructor; assumption.
  Qed.

  (** ** Conversion to [char] *)
  Theorem rchar_same i t v : denotes d i t v -> has_char d i = true -> (forall j, j < length d -> char_ok d j) -> rchar p v = to_char d i t.
  Proof.
    intros H Hc Hok'. revert Hc. revert i t v H.
    refine (fun i t v H => denotes_mut d (fun i t v => has_char d i = true -> rchar p v = to_char d i t) (fun _ _ _ => True) _ _ _ _ _ _ _ _ i t v H); auto; clear i t v H.
    - intros i Hd. unfold has_char. now rewrite Hd.
    - intros i s c Hd Hc. unfold def_of in Hd. destruct (nth_error d i) as [en |] eqn:E; [| discriminate]. injection Hd as Hd. destruct (at_entry i en E) as (Hd' & Hn & He & Hit & _).
      unfold has_char in Hc. rewrite Hd' in Hc. unfold items_of in Hit. rewrite Hd in *. destruct c as [c |]; [| discriminate]. cbn [rchar to_char]. rewrite Hd', Hn.
      rewrite (char_at i _ (KConst c)) by (rewrite Hit; cbn; auto). reflexivity.
    - intros i named parts ids ts vs Hd _ _. unfold has_char. now rewrite Hd.
    - intros i parts ids a b c k j v t x Hd Hk _ IH Hc. unfold def_of in Hd. destruct (nth_error d i) as [en |] eqn:E; [| discriminate]. injection Hd as Hd. destruct (at_entry i en E) as (Hd' & Hn & He & Hit & Hlt).
      unfold has_char in Hc. rewrite Hd' in Hc. unfold items_of in Hit. unfold en_shaped in He. rewrite Hd in *. destruct v; [| discriminate]. cbn [rchar to_char]. rewrite Hd', Hn, Hk.
      rewrite (char_at i _ (KMatch parts)) by (rewrite Hit; cbn; auto 6). rewrite existsb_nth; [| destruct He as [_ Hl]; rewrite Hl; apply nth_error_Some; congruence].
      apply IH. specialize (Hok' i Hlt). unfold char_ok in Hok'. rewrite Hd' in Hok'. symmetry in Hok'. rewrite forallb_forall in Hok'. apply Hok'. eapply nth_error_In; eauto.
    - intros i j t x Hd _ _. unfold has_char. now rewrite Hd.
    - intros i f' t x Hd _ _. unfold has_char. now rewrite Hd.
  Qed.

  (** ** Values and trees determine each other *)
  Theorem denotes_fun :
    (forall i t v, denotes d i t v -> forall v', denotes d i t v' -> v = v') /\
    (forall ids ts vs, denotes_all d ids ts vs -> forall vs', denotes_all d ids ts vs' -> vs = vs').
  Proof.
    apply denotes_mutind.
    - intros i Hd v' H. inversion H; subst; congruence.
    - intros i s c Hd v' H. inversion H; subst; congruence.
    - intros i named parts ids ts vs Hd _ IH v' H. inversion H as [| | j n' q' ids' ts' vs' Hd' Hall | | j k t x Hd' Hx |]; subst; [| congruence].
      rewrite Hd in Hd'. injection Hd' as <- <- <-. f_equal. f_equal. now apply IH.
    - intros i parts ids a b c k j v t x Hd Hk _ IH v' H. inversion H as [| | | i' q' ids' a' b' c' k' j' cv t' x' Hd' Hk' Hx | j0 k0 t0 x0 Hd' Hx |]; subst; [| congruence].
      rewrite Hd in Hd'. injection Hd' as <- <- <- <- <- <-. f_equal. apply IH. congruence.
    - intros i j t x Hd _ IH v' H. inversion H as [| | | | j0 k0 t0 x0 Hd' Hx |]; subst; try congruence.
      rewrite Hd in Hd'. injection Hd' as <-. now apply IH.
    - intros i g t x Hd _ IH v' H. inversion H as [| | | | j0 k0 t0 x0 Hd' Hx | i0 g0 t0 x0 Hd' Hx]; subst; [congruence |].
      rewrite Hd in Hd'. injection Hd' as <-. f_equal. now apply IH.
    - intros vs' H. now inversion H.
    - intros i ids t ts x xs _ IH _ IHs vs' H. inversion H; subst. f_equal; auto.
  Qed.
  Lemma combine_inj {A B} (l : list A) (m m' : list B) : length l = length m -> length l = length m' -> combine l m = combine l m' -> m = m'.
  Proof. intros H1 H2 E. rewrite <- (map_snd_combine l m H1), <- (map_snd_combine l m' H2). now rewrite E. Qed.
  Theorem denotes_inj :
    (forall i t v, denotes d i t v -> forall t', denotes d i t' v -> t = t') /\
    (forall ids ts vs, denotes_all d ids ts vs -> forall ts', denotes_all d ids ts' vs -> ts = ts').
  Proof.
    apply denotes_mutind.
    - intros i Hd t' H. inversion H; subst; congruence.
    - intros i s c Hd t' H. inversion H as [| i' s' c' Hd' | i' n' q' ids' ts' vs' Hd' Hall | | j k t0 x Hd' Hx |]; subst; congruence.
    - intros i named parts ids ts vs Hd Hall IH t' H. inversion H as [| i' s' c' Hd' | i' n' q' ids' ts' vs' Hd' Hall' Ei Et Ec | | j k t0 x Hd' Hx |]; subst; try congruence.
      rewrite Hd in Hd'. injection Hd' as <- <- <-. f_equal. apply IH.
      pose proof (denotes_all_length _ _ _ Hall) as [L1 _]. pose proof (denotes_all_length _ _ _ Hall') as [L2 _].
      assert (Hl : length (if named then map MName parts else indexes (length ids)) = length ids).
      { unfold def_of in Hd. destruct (nth_error d i) as [en |] eqn:E; [| discriminate]. injection Hd as Hd. destruct (at_entry i en E) as (_ & _ & He & _). unfold en_shaped in He. rewrite Hd in He.
        destruct named; [now rewrite map_length | unfold indexes; now rewrite map_length, seq_length]. }
      apply combine_inj in Ec; [subst; exact Hall' | lia | lia].
    - intros i parts ids a b c k j v t x Hd Hk _ IH t' H. inversion H as [| | | i' q' ids' a' b' c' k' j' cv t0 x' Hd' Hk' Hx Ei Et Ev | j0 k0 t0 x0 Hd' Hx |]; subst; [| congruence].
      rewrite Hd in Hd'. injection Hd' as <- <- <- <- <- <-.
      assert (Hp : NoDup parts /\ length parts = length ids).
      { unfold def_of in Hd. destruct (nth_error d i) as [en |] eqn:E; [| discriminate]. injection Hd as Hd. destruct (at_entry i en E) as (_ & _ & He & Hit & _). unfold en_shaped in He. unfold items_of in Hit. rewrite Hd in He, Hit. destruct He as [_ Hl]. split; [| exact Hl].
        pose proof (names_at i (ident_of (en_name en)) (SEnum (combine parts (map (name_of d) ids)))) as Q. cbn in Q. rewrite map_fst_combine in Q by (rewrite map_length; lia). apply Q. rewrite Hit. cbn. auto. }
      destruct Hp as [Hp Hl]. assert (Ek : k' = k).
      { apply (proj1 (NoDup_nth parts []) Hp); [rewrite Hl; apply nth_error_Some; congruence | rewrite Hl; apply nth_error_Some; congruence | auto]. }
      subst k'. f_equal. apply IH. congruence.
    - intros i j t x Hd _ IH t' H. inversion H as [| | | | j0 k0 t0 x0 Hd' Hx |]; subst; try congruence.
      rewrite Hd in Hd'. injection Hd' as <-. now apply IH.
    - intros i g t x Hd _ IH t' H. inversion H as [| | | | j0 k0 t0 x0 Hd' Hx | i0 g0 t0 x0 Hd' Hx]; subst; [congruence |].
      rewrite Hd in Hd'. injection Hd' as <-. f_equal. now apply IH.
    - intros ts' H. now inversion H.
    - intros i ids t ts x xs _ IH _ IHs ts' H. inversion H; subst. f_equal; auto.
  Qed.
  (** Every tree of the table has a value. *)
  Theorem denotes_total :
    (forall i t, derives d i t -> exists v, denotes d i t v) /\ (forall ids ts, derives_seq d ids ts -> exists vs, denotes_all d ids ts vs).
  Proof.
    apply (derives_mutind d (fun i t _ => exists v, denotes d i t v) (fun ids ts _ => exists vs, denotes_all d ids ts vs)).
    - intros i Hd. eexists. now apply dn_eps.
    - intros i s c Hd. eexists. eapply dn_lit; eauto.
    - intros i n q ids ts Hd _ [vs IH]. eexists. eapply dn_cat; eauto.
    - intros i q ids a b c e k j t Hd Hk _ [v IH]. eexists. eapply dn_alt; eauto.
    - intros i j t Hd _ [v IH]. eexists. eapply dn_fix; eauto.
    - intros i g t Hd _ [v IH]. eexists. eapply dn_box; eauto.
    - eexists. constructor.
    - intros i ids t ts _ [v IH] _ [vs IHs]. eexists. constructor; eauto.
  Qed.
  Theorem denotes_derives :
    (forall i t v, denotes d i t v -> derives d i t) /\ (forall ids ts vs, denotes_all d ids ts vs -> derives_seq d ids ts).
  Proof.
    apply denotes_mutind; intros.
    - now apply derives_eps.
    - eapply derives_lit; eauto.
    - eapply derives_cat; eauto.
    - eapply derives_alt; eauto.
    - eapply derives_fix; eauto.
    - eapply derives_box; eauto.
    - constructor.
    - constructor; auto.
  Qed.
End Sim.
