(** * ShareFacts: deciding [sharing_ok], and code generation without
    assumptions on names. *)
From Verif Require Export NameFacts.
From Coq Require Import String.
From Coq Require Import List.

(** ** All fixed points of an expression *)
Fixpoint fixes (B : list texpr) (e : texpr) : list (list texpr * texpr) :=
  match e with
  | TCat _ l _ | TAlt _ l _ => flat_map (fixes B) l
  | TFix _ i => (B, i) :: fixes (i :: B) i
  | _ => []
  end.
Fixpoint tfvs (e : texpr) : list nat :=
  match e with
  | TEps _ _ | TLit _ _ _ => []
  | TVar _ j _ => [j]
  | TCat _ l _ | TAlt _ l _ => flat_map tfvs l
  | TFix _ b => map pred (filter (fun n => negb (Nat.eqb n 0)) (tfvs b))
  end.

Lemma inside_fixes root B e : inside root B e -> incl (fixes B e) (fixes [] root).
Proof.
  induction 1 as [|B a l t x H IH Hx|B a l t x H IH Hx|B a i H IH].
  - apply incl_refl.
  - intros y Hy. apply IH. cbn. apply in_flat_map. eauto.
  - intros y Hy. apply IH. cbn. apply in_flat_map. eauto.
  - intros y Hy. apply IH. cbn. auto.
Qed.
Lemma inside_fix_in root B a i : inside root B (TFix a i) -> In (B, i) (fixes [] root).
Proof. intros H. apply (inside_fixes _ _ _ H). left. reflexivity. Qed.

Lemma tfree_tfvs e : forall n, tfree n e -> In n (tfvs e).
Proof.
  induction e using texpr_ind'; intros n Hn; cbn in *; try contradiction; try (subst; auto; fail).
  - induction H as [|x l Hx Hl IH]; [contradiction|]. cbn. apply in_app_iff. destruct Hn as [Hn|Hn]; auto.
  - induction H as [|x l Hx Hl IH]; [contradiction|]. cbn. apply in_app_iff. destruct Hn as [Hn|Hn]; auto.
  - apply IHe in Hn. apply in_map_iff. exists (S n). split; [reflexivity|]. apply filter_In. auto.
Qed.

(** Sufficient conditions for [sharing_ok]. *)
Definition sharing_okb (root : texpr) : bool :=
  forallb (fun x => forallb (fun y =>
    negb (texpr_eqb (snd x) (snd y)) ||
    forallb (fun n => match n with
      | O => true
      | S n => match nth_error (fst x) n, nth_error (fst y) n with
               | Some u, Some v => texpr_eqb u v
               | _, _ => false
               end
      end) (tfvs (snd x))) (fixes [] root)) (fixes [] root).

Lemma sharing_okb_ok root : sharing_okb root = true -> sharing_ok root.
Proof.
  unfold sharing_okb. intros H B a i B' a' i' H1 H2 E n Hn. rewrite forallb_forall in H.
  specialize (H _ (inside_fix_in _ _ _ _ H1)). rewrite forallb_forall in H. specialize (H _ (inside_fix_in _ _ _ _ H2)).
  cbn [fst snd] in H. rewrite E in H. cbn [negb orb] in H. rewrite forallb_forall in H. specialize (H _ (tfree_tfvs _ _ Hn)). cbn in H.
  destruct (nth_error B n) as [u|]; [|discriminate]. destruct (nth_error B' n) as [v|]; [|discriminate]. eauto.
Qed.

(** ** Conversions that never fail *)
Definition total (cs : casing) : casing :=
  Casing (fun s => match camel cs s with Some c => Some c | None => Some [] end)
         (fun s => match snake cs s with Some c => Some c | None => Some [] end).

Lemma total_names cs e : names_ok (total cs) e.
Proof.
  unfold names_ok. apply Forall_forall. intros n _. split; cbn; [destruct (camel cs (name_text n))|destruct (snake cs (name_text n))]; discriminate.
Qed.

Section Total.
  Variable cs : casing.
  Lemma new_type_total p o b x : new_type_name cs p o b = Some x -> new_type_name (total cs) p o b = Some x.
  Proof. unfold new_type_name. destruct o as [n|]; [|auto]. cbn. destruct (camel cs (name_text n)); [auto|discriminate]. Qed.
  Lemma name_parts_total conv conv' d l : (forall s c, conv s = Some c -> conv' s = Some c) ->
    forall k m x, name_parts conv d k m l = Some x -> name_parts conv' d k m l = Some x.
  Proof.
    intros H. induction l as [|[n|] l IH]; intros k m x E; cbn in *; [exact E| |].
    - destruct (conv (name_text n)) as [c|] eqn:Ec; [|discriminate]. rewrite (H _ _ Ec). destruct (bump c m) as [q m'].
      destruct (name_parts conv d (S k) m' l) eqn:E'; [|discriminate]. rewrite (IH _ _ _ E'). exact E.
    - destruct (name_parts conv d (S k) m l) eqn:E'; [|discriminate]. rewrite (IH _ _ _ E'). exact E.
  Qed.
  Lemma gen_total e : forall b x, gen cs e b = Some x -> gen (total cs) e b = Some x.
  Proof.
    induction e using texpr_ind'; intros b x E.
    - exact E.
    - cbn in *. unfold gen_literal in *. destruct (map_get _ _ _); [exact E|].
      destruct (new_type_name cs _ _ _) as [y|] eqn:En; [|discriminate]. rewrite (new_type_total _ _ _ _ En). exact E.
    - rewrite gen_cat_eq in *. assert (Hl : forall b y, gen_list (gen cs) l b = Some y -> gen_list (gen (total cs)) l b = Some y).
      { clear E. induction H as [|y l Hy Hl IH]; intros b1 z E; cbn in *; [exact E|].
        destruct (gen cs y b1) as [[b2 id]|] eqn:E1; [|discriminate]. rewrite (Hy _ _ E1).
        destruct (gen_list (gen cs) l b2) as [[b3 ids]|] eqn:E2; [|discriminate]. rewrite (IH _ _ E2). exact E. }
      destruct (gen_list (gen cs) l b) as [[b1 ids]|] eqn:El; [|discriminate]. rewrite (Hl _ _ El).
      unfold gen_cat in *. destruct (map_get _ _ _); [exact E|].
      destruct (new_type_name cs _ _ _) as [[[y1 y2] y3]|] eqn:En; [|discriminate]. rewrite (new_type_total _ _ _ _ En).
      destruct (ids_ok _ _); [|discriminate]. destruct (name_parts (snake cs) _ _ _ _) eqn:Ep; [|discriminate].
      rewrite (name_parts_total (snake cs) (snake (total cs))) with (x := l0); [exact E| |exact Ep].
      intros s c Hs. cbn. rewrite Hs. reflexivity.
    - rewrite gen_alt_eq in *. assert (Hl : forall b y, gen_list (gen cs) l b = Some y -> gen_list (gen (total cs)) l b = Some y).
      { clear E. induction H as [|y l Hy Hl IH]; intros b1 z E; cbn in *; [exact E|].
        destruct (gen cs y b1) as [[b2 id]|] eqn:E1; [|discriminate]. rewrite (Hy _ _ E1).
        destruct (gen_list (gen cs) l b2) as [[b3 ids]|] eqn:E2; [|discriminate]. rewrite (IH _ _ E2). exact E. }
      destruct (gen_list (gen cs) l b) as [[b1 ids]|] eqn:El; [|discriminate]. rewrite (Hl _ _ El).
      unfold gen_alt in *. destruct (map_get _ _ _); [exact E|].
      destruct (new_type_name cs _ _ _) as [[[y1 y2] y3]|] eqn:En; [|discriminate]. rewrite (new_type_total _ _ _ _ En).
      destruct (ids_ok _ _); [|discriminate]. destruct (name_parts (camel cs) _ _ _ _) eqn:Ep; [|discriminate].
      rewrite (name_parts_total (camel cs) (camel (total cs))) with (x := l0); [exact E| |exact Ep].
      intros s c Hs. cbn. rewrite Hs. reflexivity.
    - cbn [gen] in *. destruct (map_get _ _ _); [exact E|].
      destruct (new_type_name cs _ _ _) as [[[y1 y2] y3]|] eqn:En; [|discriminate]. rewrite (new_type_total _ _ _ _ En). cbv zeta in *.
      destruct (gen cs e _) as [[b4 j]|] eqn:E4; [|discriminate]. rewrite (IHe _ _ E4). exact E.
    - exact E.
  Qed.
End Total.

(** ** What generation gives, without a condition on names *)
Theorem generated_table cs e b root : wt [] e -> generate cs e = Some (b, root) ->
  exists m, length m = length (data b) /\ root < length (data b)
    /\ (forall id, id < length (data b) -> good (data b) m id)
    /\ tau m root = get_type e /\ sz m root = tsize e
    /\ (forall x, x < length (data b) -> reach (data b) root x)
    /\ left_wf (data b).
Proof.
  intros Hwt E. apply gen_total in E. fold (generate (total cs) e) in E.
  destruct (generate_spec (total cs) e Hwt (total_names cs e)) as (b' & root' & m & E' & H1 & H2 & H3 & H4 & H5 & H6).
  rewrite E in E'. injection E' as <- <-. exists m. repeat (split; [assumption|]).
  exact (generate_left (total cs) e b root Hwt (total_names cs e) E).
Qed.
Theorem generated_trees cs e b root : wt [] e -> sharing_ok e -> generate cs e = Some (b, root) ->
  forall t, parse_tree (gram_of_t e) t <-> derives (data b) root t.
Proof.
  intros Hwt Hs E. apply gen_total in E. fold (generate (total cs) e) in E.
  apply (generate_repr (total cs) e Hs) in E; [|exact Hwt|apply total_names].
  apply (repr_trees _ _ _ _ [] E). intros n f Hn. destruct n; discriminate.
Qed.
