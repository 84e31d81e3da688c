(** * EmitFacts: the emission order, the literals of the table and the
    generated names. *)
From Verif Require Export TableMore.
From Coq Require Import Sorting.Sorted DecimalNat.
From Coq Require Import String.
From Coq Require Import List.

(** ** Ordered sets of ids *)
Lemma nset_insert_sorted n s : StronglySorted lt s -> StronglySorted lt (nset_insert n s).
Proof.
  induction 1 as [|x s Hs IH Hx]; cbn; [repeat constructor|].
  destruct (Nat.compare_spec n x) as [->|H|H].
  - constructor; assumption.
  - constructor; [constructor; assumption|]. constructor; [exact H|]. eapply Forall_impl; [|exact Hx]. cbn. lia.
  - constructor; [exact IH|]. rewrite Forall_forall in *. intros y Hy. apply nset_insert_In in Hy as [->|Hy]; auto.
Qed.
Lemma nset_extend_sorted l : forall s, StronglySorted lt s -> StronglySorted lt (nset_extend s l).
Proof.
  induction l as [|n l IH]; intros s H; [exact H|]. apply (IH (nset_insert n s)). apply nset_insert_sorted. exact H.
Qed.
Lemma sorted_nodup s : StronglySorted lt s -> NoDup s.
Proof.
  induction 1 as [|x s Hs IH Hx]; constructor; [|exact IH]. intros Hin. rewrite Forall_forall in Hx. specialize (Hx x Hin). lia.
Qed.

(** ** [emit_loop] *)
Section Emit.
  Variable d : list entry.
  Hypothesis Hdeps : forall i en j, nth_error d i = Some en -> In j (en_deps en) -> j < length d.

  Definition round (completed : list nat) := fix round (next acc : list nat) : option (list nat) :=
    match next with
    | [] => Some acc
    | i :: next' =>
      match nth_error d i with
      | None => None
      | Some en => round next' (nset_extend acc (filter (fun j => negb (nset_mem j completed)) (en_deps en)))
      end
    end.
  Lemma round_spec completed next : Forall (fun i => i < length d) next -> forall acc, StronglySorted lt acc ->
    exists todo, round completed next acc = Some todo /\ StronglySorted lt todo
      /\ forall x, In x todo <-> In x acc \/ (~ In x completed /\ exists i en, In i next /\ nth_error d i = Some en /\ In x (en_deps en)).
  Proof.
    induction 1 as [|i next Hi Hn IH]; intros acc Hs; cbn [round].
    - exists acc. split; [reflexivity|]. split; [exact Hs|]. intros x. split; [auto|]. intros [H|(_ & i & en & [] & _)]; exact H.
    - destruct (nth_error d i) as [en|] eqn:E; [|apply nth_error_None in E; lia].
      destruct (IH _ (nset_extend_sorted (filter (fun j => negb (nset_mem j completed)) (en_deps en)) acc Hs)) as (todo & H1 & H2 & H3).
      exists todo. split; [exact H1|]. split; [exact H2|]. intros x. rewrite H3, nset_extend_In, filter_In.
      assert (Hm : negb (nset_mem x completed) = true <-> ~ In x completed).
      { rewrite <- nset_mem_In. destruct (nset_mem x completed); cbn; intuition congruence. }
      rewrite Hm. split.
      + intros [[H|[H H']]|(H & k & ek & Hk & Hk' & Hx)]; [auto| |].
        * right. split; [exact H'|]. exists i, en. cbn; auto.
        * right. split; [exact H|]. exists k, ek. cbn; auto.
      + intros [H|(H & k & ek & [->|Hk] & Hk' & Hx)]; [auto| |].
        * rewrite E in Hk'. injection Hk' as <-. auto.
        * right. split; [exact H|]. exists k, ek. auto.
  Qed.
  Lemma emit_loop_S n todo completed : emit_loop (S n) d todo completed =
    match todo with
    | [] => Some []
    | _ => match round (nset_extend completed todo) todo [] with
           | None => None
           | Some todo' => option_map (app todo) (emit_loop n d todo' (nset_extend completed todo))
           end
    end.
  Proof. destruct todo; reflexivity. Qed.

  Definition left_over (completed : list nat) : nat := length (filter (fun x => negb (nset_mem x completed)) (seq 0 (length d))).
  Lemma filter_shorter (f g : nat -> bool) l y : (forall x, g x = true -> f x = true) -> In y l -> f y = true -> g y = false ->
    length (filter g l) < length (filter f l).
  Proof.
    intros H. assert (Hle : forall l, length (filter g l) <= length (filter f l)).
    { clear - H. induction l as [|x l IH]; cbn; [lia|]. destruct (g x) eqn:E; [rewrite (H x E); cbn; lia|]. destruct (f x); cbn; lia. }
    induction l as [|x l IH]; intros []; cbn.
    - subst x. intros -> ->. cbn. specialize (Hle l). lia.
    - intros Hf Hg. specialize (IH H0 Hf Hg). destruct (g x) eqn:E; [rewrite (H x E); cbn; lia|]. destruct (f x); cbn; lia.
  Qed.
  Lemma left_over_less completed y todo : y < length d -> In y todo -> ~ In y completed ->
    left_over (nset_extend completed todo) < left_over completed.
  Proof.
    intros Hy Hin Hn. unfold left_over. apply (filter_shorter _ _ _ y).
    - intros x. rewrite !negb_true_iff. intros H. destruct (nset_mem x completed) eqn:E; [|reflexivity].
      apply nset_mem_In in E. assert (nset_mem x (nset_extend completed todo) = true) by (apply nset_mem_In, nset_extend_In; auto). congruence.
    - apply in_seq. lia.
    - rewrite negb_true_iff. destruct (nset_mem y completed) eqn:E; [|reflexivity]. apply nset_mem_In in E. contradiction.
    - rewrite negb_false_iff. apply nset_mem_In, nset_extend_In. auto.
  Qed.

  Theorem emit_loop_spec fuel : forall todo completed, StronglySorted lt todo -> Forall (fun i => i < length d) todo ->
    (forall x, In x todo -> ~ In x completed) ->
    (forall i en j, In i completed -> nth_error d i = Some en -> In j (en_deps en) -> In j completed \/ In j todo) ->
    left_over completed < fuel ->
    exists order, emit_loop fuel d todo completed = Some order /\ NoDup order /\ incl todo order
      /\ (forall x, In x order -> ~ In x completed /\ exists i, In i todo /\ reach d i x)
      /\ (forall i en j, In i completed \/ In i order -> nth_error d i = Some en -> In j (en_deps en) -> In j completed \/ In j order).
  Proof.
    induction fuel as [|n IH]; intros todo completed Hs Hlt Hdis Hcl Hf; [lia|]. rewrite emit_loop_S.
    destruct todo as [|t0 todo0] eqn:Et.
    - exists []. split; [reflexivity|]. split; [constructor|]. split; [apply incl_refl|]. split; [contradiction|].
      intros i en j [Hi|[]] He Hj. destruct (Hcl i en j Hi He Hj) as [H|[]]. auto.
    - rewrite <- Et in *. destruct (round_spec (nset_extend completed todo) todo Hlt [] (SSorted_nil _)) as (todo' & E & Hs' & Hin').
      assert (Hlt' : Forall (fun i => i < length d) todo').
      { rewrite Forall_forall. intros x Hx. apply Hin' in Hx as [[]|(_ & i & en & _ & He & Hx)]. eapply Hdeps; eauto. }
      destruct (IH todo' (nset_extend completed todo) Hs' Hlt') as (order & E2 & Hnd & Hincl & Hord & Hclo).
      + intros x Hx. apply Hin' in Hx as [[]|(Hx & _)]. exact Hx.
      + intros i en j Hi He Hj. destruct (in_dec Nat.eq_dec j (nset_extend completed todo)) as [Hjc|Hjc]; [auto|].
        apply nset_extend_In in Hi as [Hi|Hi].
        * exfalso. apply Hjc, nset_extend_In. eapply Hcl; eauto.
        * right. apply Hin'. right. split; [exact Hjc|]. exists i, en. auto.
      + assert (left_over (nset_extend completed todo) < left_over completed); [|lia].
        assert (Ht0 : In t0 todo) by (rewrite Et; left; reflexivity).
        apply (left_over_less completed t0); auto. rewrite Forall_forall in Hlt. auto.
      + rewrite E, E2. replace (match todo with [] => Some [] | _ :: _ => option_map (app todo) (Some order) end) with (Some (todo ++ order)) by (rewrite Et; reflexivity).
        exists (todo ++ order). split; [reflexivity|].
        assert (Hdj : forall x, In x todo -> In x order -> False).
        { intros x Hx Hx'. apply Hord in Hx' as [Hx' _]. apply Hx', nset_extend_In. auto. }
        split; [|split; [apply incl_appl, incl_refl|split]].
        * apply sorted_nodup in Hs. clear - Hs Hnd Hdj. induction todo as [|x l IHl]; [exact Hnd|]. inversion Hs; subst. cbn. constructor.
          -- rewrite in_app_iff. intros [H|H]; [contradiction|]. apply (Hdj x); [left; reflexivity|exact H].
          -- apply IHl; [assumption|]. intros y Hy. apply Hdj. right. exact Hy.
        * intros x Hx. apply in_app_iff in Hx as [Hx|Hx].
          -- split; [auto|]. exists x. split; [exact Hx|constructor].
          -- destruct (Hord x Hx) as [H1 (i & Hi & Hr)]. split; [intros H; apply H1, nset_extend_In; auto|].
             apply Hin' in Hi as [[]|(_ & k & en & Hk & He & Hi)]. exists k. split; [exact Hk|]. eapply reach_step; eauto.
        * intros i en j Hi He Hj. rewrite in_app_iff in *.
          assert (In i (nset_extend completed todo) \/ In i order) as Hi' by (rewrite nset_extend_In; tauto).
          destruct (Hclo i en j Hi' He Hj) as [H|H]; [rewrite nset_extend_In in H|]; tauto.
  Qed.

  Corollary emit_all root : root < length d ->
    exists order, emit_loop (S (length d)) d [root] [] = Some order /\ NoDup order /\ forall x, In x order <-> reach d root x.
  Proof.
    intros Hr. destruct (emit_loop_spec (S (length d)) [root] []) as (order & E & H1 & H2 & H3 & H4).
    - repeat constructor.
    - repeat constructor. exact Hr.
    - auto.
    - contradiction.
    - unfold left_over. rewrite <- (seq_length (length d) 0) at 2. assert (forall (f : nat -> bool) l, length (filter f l) <= length l).
      { clear. induction l as [|x l IH]; cbn; [lia|]. destruct (f x); cbn; lia. }
      specialize (H (fun x => negb (nset_mem x [])) (seq 0 (length d))). lia.
    - exists order. split; [exact E|]. split; [exact H1|]. intros x. split.
      + intros Hx. destruct (H3 x Hx) as (_ & i & [<-|[]] & Hi). exact Hi.
      + assert (G : forall i, reach d i x -> In i order -> In x order).
        { induction 1 as [i|i j k en He Hj _ IH]; [auto|]. intros Hi. apply IH. destruct (H4 i en j (or_intror Hi) He Hj) as [[]|H]; exact H. }
        intros Hx. apply (G root Hx). apply H2. left. reflexivity.
  Qed.
End Emit.

(** ** Literals of the table *)
Fixpoint t_lits (e : texpr) : list rstr :=
  match e with
  | TLit _ s _ => [s]
  | TCat _ l _ | TAlt _ l _ => flat_map t_lits l
  | TFix _ i => t_lits i
  | _ => []
  end.
Definition table_lits (d : table) (L : list rstr) : Prop := forall id s c, def_of d id = Some (DLit s c) -> In s L.

Lemma table_lits_push d en L : table_lits d L -> (forall s c, en_def en = DLit s c -> In s L) -> table_lits (d ++ [en]) L.
Proof.
  intros H He id s c Hd. destruct (Nat.lt_ge_cases id (length d)) as [Hi|Hi].
  - rewrite def_app in Hd by exact Hi. eapply H; eauto.
  - unfold def_of in Hd. rewrite nth_error_app2 in Hd by exact Hi. destruct (id - length d) as [|k]; cbn in Hd.
    + injection Hd as Hd. eapply He; eauto.
    + destruct k; discriminate.
Qed.

Section Lits.
  Variable cs : casing.
  Variable L : list rstr.
  Definition kspec (e : texpr) : Prop := forall b b' id, incl (t_lits e) L -> table_lits (data b) L -> gen cs e b = Some (b', id) -> table_lits (data b') L.

  Lemma gen_list_lits l : Forall kspec l -> forall b b' ids, incl (flat_map t_lits l) L -> table_lits (data b) L ->
    gen_list (gen cs) l b = Some (b', ids) -> table_lits (data b') L.
  Proof.
    induction 1 as [|e l He Hl IH]; intros b b' ids Hi Ht E; cbn [gen_list] in E.
    - injection E as <- <-. exact Ht.
    - cbn [flat_map] in Hi. destruct (gen cs e b) as [[b1 id]|] eqn:E1; [|discriminate].
      destruct (gen_list (gen cs) l b1) as [[b2 ids2]|] eqn:E2; [|discriminate]. injection E as <- <-.
      eapply IH; [| |exact E2].
      + intros x Hx. apply Hi, in_app_iff. auto.
      + eapply He; [|exact Ht|exact E1]. intros x Hx. apply Hi, in_app_iff. auto.
  Qed.
  Lemma gen_lits e : kspec e.
  Proof.
    induction e using texpr_ind'; intros b b' id Hi Ht E.
    - cbn in E. unfold gen_epsilon in E. destruct (eps_id b); injection E as <- <-; [exact Ht|]. cbn. apply table_lits_push; [exact Ht|discriminate].
    - cbn in E. unfold gen_literal in E. destruct (map_get rstr_eqb s (lit_map b)); [injection E as <- <-; exact Ht|].
      destruct (new_type_name _ _ _ _) as [[[x ident] b1]|] eqn:En; [|discriminate].
      apply new_type_name_inv in En as (-> & nm & ->).
      assert (Hs : In s L) by (apply Hi; left; reflexivity).
      destruct s as [|c [|c' s]]; injection E as <- <-; cbn; (apply table_lits_push; [exact Ht|]; cbn; intros s0 c0 E0; injection E0 as <- _; exact Hs).
    - rewrite gen_cat_eq in E. destruct (gen_list (gen cs) _ b) as [[b1 ids]|] eqn:El; [|discriminate].
      pose proof (gen_list_lits _ H _ _ _ Hi Ht El) as Ht1. clear El.
      unfold gen_cat in E. destruct (map_get nats_eqb ids (cat_map b1)); [injection E as <- <-; exact Ht1|].
      destruct (new_type_name _ _ _ _) as [[[x ident] b2]|] eqn:En; [|discriminate].
      apply new_type_name_inv in En as (-> & nm & ->). destruct (ids_ok _ _); [|discriminate].
      destruct (name_parts _ _ _ _ _) as [parts|]; [|discriminate]. injection E as <- <-. cbn. apply table_lits_push; [exact Ht1|discriminate].
    - rewrite gen_alt_eq in E. destruct (gen_list (gen cs) _ b) as [[b1 ids]|] eqn:El; [|discriminate].
      pose proof (gen_list_lits _ H _ _ _ Hi Ht El) as Ht1. clear El.
      unfold gen_alt in E. destruct (map_get nats_eqb ids (alt_map b1)); [injection E as <- <-; exact Ht1|].
      destruct (new_type_name _ _ _ _) as [[[x ident] b2]|] eqn:En; [|discriminate].
      apply new_type_name_inv in En as (-> & nm & ->). destruct (ids_ok _ _); [|discriminate].
      destruct (name_parts _ _ _ _ _) as [parts|]; [|discriminate]. injection E as <- <-.
      destruct (forallb _ ids); cbn; (apply table_lits_push; [exact Ht1|discriminate]).
    - cbn [gen] in E. destruct (map_get texpr_eqb e (fix_map b)); [injection E as <- <-; exact Ht|].
      destruct (new_type_name _ _ _ _) as [[[x ident] b2]|] eqn:En; [|discriminate].
      apply new_type_name_inv in En as (-> & nm & ->). cbv zeta in E.
      destruct (gen cs e _) as [[b4 j]|] eqn:E4; [|discriminate].
      assert (Ht4 : table_lits (data b4) L).
      { eapply IHe; [exact Hi| |exact E4]. cbn. apply table_lits_push; [exact Ht|discriminate]. }
      cbn [data set_context] in E. destruct (nth_error (data b4) j); [|discriminate]. destruct (Nat.ltb _ _); [|discriminate].
      injection E as <- <-. cbn. intros i s c Hd. unfold def_of in Hd. rewrite update_nth in Hd.
      destruct (Nat.eqb i (length (data b))); [destruct (nth_error (data b4) i); discriminate|]. eapply Ht4; exact Hd.
    - cbn [gen] in E. unfold gen_variable in E. destruct (nth_error (context b) i) as [f|]; [|discriminate].
      destruct (map_get Nat.eqb f (var_map b)); [injection E as <- <-; exact Ht|].
      destruct (nth_error (data b) f); [|discriminate]. injection E as <- <-. cbn. apply table_lits_push; [exact Ht|discriminate].
  Qed.
End Lits.

(** ** Panics *)
Definition ascii (s : rstr) : Prop := Forall (fun c => (c < 128)%N) s.

(** A literal is cut after as many bytes as characters were read: all but its
    last character matter. *)
Lemma ascii_removelast s : ascii s -> ascii (removelast s).
Proof. unfold ascii. rewrite !Forall_forall. intros H x Hx. apply H. destruct s as [|c s]; [destruct Hx|]. rewrite (app_removelast_last 0%N (l := c :: s)) by discriminate. apply in_app_iff. auto. Qed.
Lemma firstn_removelast {A} (s : list A) n x : n < length s -> In x (firstn n s) -> In x (removelast s).
Proof. intros Hn Hx. rewrite removelast_firstn_len. replace (firstn n s) with (firstn n (firstn (pred (length s)) s)) in Hx by (rewrite firstn_firstn; f_equal; lia). rewrite <- (firstn_skipn n). apply in_app_iff. auto. Qed.

Section NoPanic.
  Variable tab : table.
  Variable f : nat -> ty.
  Hypothesis Hok : forall id, id < length tab -> flat_ok tab f id.
  Hypothesis Hasc : forall id s c, def_of tab id = Some (DLit s c) -> ascii (removelast s).

  Lemma consume_no_panic s st : ascii (removelast s) -> fst (consume_str s st) <> Panic.
  Proof.
    intros Ha. unfold consume_str.
    assert (G : forall cs count st, count + length cs = length s -> fst (consume_loop s cs count st) <> Panic).
    { induction cs as [|c cs IH]; intros count st0 Hl; cbn [consume_loop]; [discriminate|].
      destruct (iw_peek st0) as [q st1]. destruct q as [x|]; [|discriminate].
      destruct (N.eqb x c).
      - apply IH. cbn in Hl. lia.
      - rewrite byte_prefix_ascii; [discriminate|cbn in Hl; lia|]. unfold ascii in Ha. rewrite Forall_forall in *. intros y Hy.
        apply Ha, (firstn_removelast s count); [cbn in Hl; lia|exact Hy]. }
    apply G. reflexivity.
  Qed.

  Theorem take_no_panic fuel : forall id st, id < length tab -> fst (take tab fuel id st) <> Panic.
  Proof.
    induction fuel as [|n IH]; intros id st Hid; [discriminate|]. cbn [take].
    pose proof (Hok id Hid) as Hf. unfold flat_ok in Hf.
    destruct (def_of tab id) as [[|s c|nm p ids|p ids fs nl al c|[j|]|g]|] eqn:Ed; try contradiction; try discriminate.
    - pose proof (consume_no_panic s st (Hasc _ _ _ Ed)) as H. destruct (consume_str s st) as [[x|e| |] st1]; cbn in *; congruence.
    - destruct Hf as [_ Hl]. assert (G : fst (take_seq (take tab n) ids st) <> Panic).
      { clear Ed. revert st. induction Hl as [|x xs Hx Hxs IHs]; intros st; cbn [take_seq]; [discriminate|].
        pose proof (IH x st Hx) as H. destruct (take tab n x st) as [[t|e| |] st1]; cbn in *; try congruence.
        specialize (IHs st1). destruct (take_seq (take tab n) xs st1) as [[t'|e| |] st2]; cbn in *; congruence. }
      destruct (take_seq (take tab n) ids st) as [[x|e| |] st1]; cbn in *; congruence.
    - destruct Hf as (Hf & Hl & Hfs & Hnl & _). destruct (iw_peek st) as [q st1].
      destruct ids as [|x0 xs0]; [contradiction|]. pose proof (alts_pair f _ _ _ Hf) as Hpair.
      assert (Hb : forall k j, nth_error (x0 :: xs0) k = Some j -> fst (take_branch (take tab n) (x0 :: xs0) k st1) <> Panic).
      { intros k j Hk. unfold take_branch. rewrite Hk. rewrite Forall_forall in Hl. pose proof (IH j st1 (Hl j (nth_error_In _ _ Hk))) as H.
        destruct (take tab n j st1) as [[t|e| |] st2]; cbn in *; congruence. }
      destruct (match q with Some c0 => pick_arm c0 fs | None => None end) as [k|] eqn:Ek.
      + destruct q as [c0|]; [|discriminate]. pose proof (pick_arm_spec f c0 (x0 :: xs0)) as Hp.
        specialize (Hp (fun k k' j j' Hk Hk' Hne => proj2 (Hpair k k' j j' Hk Hk' Hne)) 0). rewrite <- Hfs, Ek in Hp.
        destruct Hp as (k0 & j & -> & Hj & _). eapply Hb; eauto.
      + destruct nl as [k|]; [|destruct q; discriminate].
        pose proof (find_nullable_spec f (x0 :: xs0) 0) as Hp. rewrite <- Hnl in Hp. destruct Hp as (k0 & j & -> & Hj & _). eapply Hb; eauto.
    - apply IH. apply Hf.
    - pose proof (IH g st (proj2 Hf)) as H. destruct (take tab n g st) as [[t|e| |] st1]; cbn in *; congruence.
  Qed.
End NoPanic.
