(** * LeftFacts: the generated parsers are not left recursive, whatever types
    are shared. *)
From Verif Require Export ReprFacts.
From Coq Require Import String.
From Coq Require Import List.

(** The types whose [take] may be called by that of [id] before anything is
    consumed. *)
Definition lefts (tab : table) (id : nat) : list nat :=
  match def_of tab id with
  | Some (DCat _ _ (x :: _)) => [x]
  | Some (DAlt _ ids _ _ _ _) => ids
  | Some (DFix (Some j)) => [j]
  | Some (DBox f) => [f]
  | _ => []
  end.
Inductive lreach (tab : table) : nat -> nat -> Prop :=
| lreach_refl x : lreach tab x x
| lreach_step x y z : In y (lefts tab x) -> lreach tab y z -> lreach tab x z.
Definition left_wf (tab : table) : Prop := forall x, Acc (fun y x => In y (lefts tab x)) x.

Lemma lefts_mentions tab x y : In y (lefts tab x) -> In y (mentions tab x).
Proof.
  unfold lefts, mentions. destruct (def_of tab x) as [[|s c|nm p [|z ids]|p ids fs nl al c|[j|]|f']|]; cbn; auto.
  intros [<-|[]]. left. reflexivity.
Qed.

Section Closed.
  (** Tables in which every mentioned id exists. *)
  Definition closed (tab : table) : Prop := forall x y, In y (mentions tab x) -> y < length tab.

  Lemma inv_closed b m : inv b m -> closed (data b).
  Proof.
    intros I x y Hy. destruct (Nat.lt_ge_cases x (length (data b))) as [Hx|Hx].
    - destruct (i_ok _ _ I x Hx) as [Hc|Hg].
      + apply (i_ctx _ _ I) in Hc. unfold mentions in Hy. rewrite Hc in Hy. contradiction.
      + destruct Hg as [Hf _]. apply flat_ok_ids in Hf. rewrite Forall_forall in Hf. auto.
    - unfold mentions, def_of in Hy. rewrite (proj2 (nth_error_None _ _) Hx) in Hy. contradiction.
  Qed.

  Lemma lefts_app tab l x : x < length tab -> lefts (tab ++ l) x = lefts tab x.
  Proof. intros H. unfold lefts. rewrite def_app by exact H. reflexivity. Qed.
  Lemma lefts_out tab x : length tab <= x -> lefts tab x = [].
  Proof. intros H. unfold lefts, def_of. rewrite (proj2 (nth_error_None _ _) H). reflexivity. Qed.
  Lemma lreach_app tab l x y : closed tab -> x < length tab -> lreach (tab ++ l) x y -> lreach tab x y.
  Proof.
    intros Hc Hx H. revert Hx. induction H as [x|x y z Hy _ IH]; intros Hx; [constructor|].
    rewrite lefts_app in Hy by exact Hx. eapply lreach_step; [exact Hy|]. apply IH. eapply Hc. apply lefts_mentions. exact Hy.
  Qed.
  Lemma lreach_app' tab l x y : x < length tab -> closed tab -> lreach tab x y -> lreach (tab ++ l) x y.
  Proof.
    intros Hx Hc H. revert Hx. induction H as [x|x y z Hy _ IH]; intros Hx; [constructor|].
    eapply lreach_step; [rewrite lefts_app by exact Hx; exact Hy|]. apply IH. eapply Hc. apply lefts_mentions. exact Hy.
  Qed.
  Lemma lreach_lt tab x y : closed tab -> lreach tab x y -> x < length tab -> y < length tab.
  Proof.
    intros Hc. induction 1 as [x|x y z Hy _ IH]; intros Hx; [exact Hx|]. apply IH. eapply Hc. apply lefts_mentions. exact Hy.
  Qed.

  Lemma Acc_app tab l x : closed tab -> x < length tab -> Acc (fun y x => In y (lefts tab x)) x ->
    Acc (fun y x => In y (lefts (tab ++ l) x)) x.
  Proof.
    intros Hc Hx H. revert Hx. induction H as [x _ IH]; intros Hx. constructor. intros y Hy.
    rewrite lefts_app in Hy by exact Hx. apply IH; [exact Hy|]. eapply Hc. apply lefts_mentions. exact Hy.
  Qed.
  Lemma left_wf_push tab en : closed tab -> left_wf tab -> (forall y, In y (lefts (tab ++ [en]) (length tab)) -> y < length tab) ->
    left_wf (tab ++ [en]).
  Proof.
    intros Hc Hw Hen x. destruct (Nat.lt_ge_cases x (length tab)) as [Hx|Hx].
    - apply Acc_app; auto.
    - destruct (Nat.eq_dec x (length tab)) as [->|Hne].
      + constructor. intros y Hy. apply Acc_app; auto.
      + constructor. intros y Hy. rewrite lefts_out in Hy; [contradiction|]. rewrite app_length. cbn. lia.
  Qed.

  (** Only [a] reaches [a]. *)
  Definition alone (tab : table) (a : nat) : Prop := forall x, lreach tab x a -> x = a.
  Lemma alone_push tab en a : closed tab -> a < length tab -> alone tab a ->
    (forall y, In y (lefts (tab ++ [en]) (length tab)) -> y < length tab /\ ~ lreach tab y a) -> alone (tab ++ [en]) a.
  Proof.
    intros Hc Ha Hal Hen x Hx. destruct (Nat.lt_ge_cases x (length tab)) as [Hlt|Hge].
    - apply Hal. eapply lreach_app; eauto.
    - inversion Hx as [|? y ? Hy Hya]; subst; [reflexivity|]. exfalso.
      destruct (Nat.eq_dec x (length tab)) as [->|Hne].
      + destruct (Hen y Hy) as [H1 H2]. apply H2. eapply lreach_app; eauto.
      + rewrite lefts_out in Hy; [contradiction|]. rewrite app_length. cbn. lia.
  Qed.

  (** Filling a hole. *)
  Variable tab : table.
  Variables h j : nat.
  Hypothesis Hhole : def_of tab h = Some (DFix None).
  Hypothesis Hj : ~ lreach tab j h.

  Lemma lefts_fill x : lefts (fill h j tab) x = if Nat.eqb x h then [j] else lefts tab x.
  Proof.
    unfold lefts, def_of, fill. rewrite update_nth. destruct (Nat.eqb_spec x h) as [->|Hne]; [|reflexivity].
    unfold def_of in Hhole. destruct (nth_error tab h); [reflexivity|discriminate].
  Qed.
  Lemma lreach_fill_avoid x y : ~ lreach tab x h -> lreach (fill h j tab) x y -> lreach tab x y.
  Proof.
    intros Hx H. revert Hx. induction H as [x|x y z Hy _ IH]; intros Hx; [constructor|].
    rewrite lefts_fill in Hy. destruct (Nat.eqb_spec x h) as [->|Hne]; [exfalso; apply Hx; constructor|].
    eapply lreach_step; [exact Hy|]. apply IH. intros H. apply Hx. eapply lreach_step; eauto.
  Qed.
  Lemma left_wf_fill : left_wf tab -> left_wf (fill h j tab).
  Proof.
    intros Hw.
    assert (Hav : forall x, ~ lreach tab x h -> Acc (fun y x => In y (lefts (fill h j tab) x)) x).
    { intros x. generalize (Hw x). intros Hacc; induction Hacc as [x _ IH]. intros Hx. constructor. intros y Hy.
      rewrite lefts_fill in Hy. destruct (Nat.eqb_spec x h) as [->|Hne]; [exfalso; apply Hx; constructor|].
      apply IH; [exact Hy|]. intros H. apply Hx. eapply lreach_step; eauto. }
    intros x. generalize (Hw x). intros Hacc; induction Hacc as [x _ IH]. constructor. intros y Hy.
    rewrite lefts_fill in Hy. destruct (Nat.eqb_spec x h) as [->|Hne].
    - destruct Hy as [<-|[]]. apply Hav. exact Hj.
    - apply IH. exact Hy.
  Qed.
  Lemma alone_fill a : alone tab a -> ~ lreach tab j a -> alone (fill h j tab) a.
  Proof.
    intros Hal Hja x H. induction H as [x|x y z Hy _ IH]; [reflexivity|].
    specialize (IH Hal Hja). subst y. rewrite lefts_fill in Hy. destruct (Nat.eqb_spec x h) as [Exh|Hne].
    - destruct Hy as [Ey|[]]. exfalso. apply Hja. rewrite Ey. constructor.
    - apply Hal. eapply lreach_step; [exact Hy|constructor].
  Qed.
End Closed.

(** First sets along left edges. *)
Lemma lefts_first tab f x y : flat_ok tab f x -> In y (lefts tab x) -> forall c, In c (first_set (f y)) -> In c (first_set (f x)).
Proof.
  unfold flat_ok, lefts. intros H Hy c Hc.
  destruct (def_of tab x) as [[|s k|nm p ids|p ids fs nl al k|[j|]|f']|]; try contradiction.
  - destruct ids as [|z ids]; [contradiction|]. destruct Hy as [<-|[]]. destruct H as [[Hn Hs] _].
    apply (seq_ok_first f _ _ _ Hs Hn). exact Hc.
  - destruct ids as [|z ids]; [contradiction|]. destruct H as [H _]. apply (alts_sets f _ _ _ H). eauto.
  - destruct Hy as [<-|[]]. destruct H as [-> _]. exact Hc.
  - destruct Hy as [<-|[]]. destruct H as [-> _]. exact Hc.
Qed.
Lemma lreach_first b m x a : inv b m -> lreach (data b) x a -> forall c, In c (first_set (tau m a)) -> In c (first_set (tau m x)).
Proof.
  intros I. induction 1 as [x|x y z Hy _ IH]; [auto|]. intros c Hc.
  assert (Hx : x < length (data b)).
  { destruct (Nat.lt_ge_cases x (length (data b))) as [H|H]; [exact H|]. rewrite lefts_out in Hy by exact H. contradiction. }
  destruct (i_ok _ _ I x Hx) as [Hctx|Hg].
  - apply (i_ctx _ _ I) in Hctx. unfold lefts in Hy. rewrite Hctx in Hy. contradiction.
  - eapply lefts_first; [apply Hg|exact Hy|apply IH; exact Hc].
Qed.

(** ** Types are never empty *)
Definition ty_productive (t : ty) : Prop := nullable t = true \/ exists c, In c (first_set t).

Lemma wt_productive :
  (forall G e, wt G e -> (forall i t, nth_error G i = Some (true, t) -> ty_productive t) -> ty_productive (get_type e)) /\
  (forall G t es t', wt_seq G t es t' -> nullable t = false -> ty_productive t -> ty_productive t') /\
  (forall G t es t', wt_branches G t es t' -> ty_productive t -> ty_productive t').
Proof.
  apply wt_mutind; cbn [get_type]; intros.
  - left. reflexivity.
  - destruct s as [|c s]; [left; reflexivity|right; exists c; cbn; auto].
  - eauto.
  - auto.
  - auto.
  - apply H. intros [|i0] t Hi; [discriminate|]. cbn in Hi. eauto.
  - assumption.
  - apply H0; [cbn; rewrite H1; reflexivity|]. right. destruct H2 as [H2|[c Hc]]; [congruence|]. exists c. apply cat_first. auto.
  - assumption.
  - apply H0. destruct H1 as [H1|[c Hc]]; [left; cbn; rewrite H1; reflexivity|right; exists c; apply alt_first; auto].
Qed.

(** ** Single steps *)
Definition grows (b b' : bst) (id : nat) : Prop :=
  context b' = context b /\ (data b' = data b \/ exists en, data b' = data b ++ [en] /\ id = length (data b)).

Lemma gen_epsilon_grows b m b' id : inv b m -> gen_epsilon b = Some (b', id) -> grows b b' id.
Proof.
  intros I. unfold gen_epsilon. rewrite (i_eps _ _ I). intros E. injection E as <- <-. split; [reflexivity|]. right. eexists. split; reflexivity.
Qed.
Lemma gen_literal_grows cs o s b b' id : gen_literal cs o s b = Some (b', id) -> grows b b' id.
Proof.
  unfold gen_literal. destruct (map_get rstr_eqb s (lit_map b)) as [k|].
  - intros E. injection E as <- <-. split; [reflexivity|left; reflexivity].
  - destruct (new_type_name _ _ _ _) as [[[x ident] b1]|] eqn:En; [|discriminate].
    apply new_type_name_inv in En as (-> & nm & ->). intros E.
    destruct s as [|c [|c' s]]; injection E as <- <-; (split; [reflexivity|right; eexists; split; reflexivity]).
Qed.
Lemma gen_cat_grows cs o names ids b b' id : gen_cat cs o names ids b = Some (b', id) -> grows b b' id.
Proof.
  unfold gen_cat. destruct (map_get nats_eqb ids (cat_map b)) as [k|].
  - intros E. injection E as <- <-. split; [reflexivity|left; reflexivity].
  - destruct (new_type_name _ _ _ _) as [[[x ident] b1]|] eqn:En; [|discriminate].
    apply new_type_name_inv in En as (-> & nm & ->). destruct (ids_ok _ _); [|discriminate].
    destruct (name_parts _ _ _ _ _) as [parts|]; [|discriminate]. intros E. injection E as <- <-.
    split; [reflexivity|right; eexists; split; reflexivity].
Qed.
Lemma gen_alt_grows cs o names tys ids b b' id : gen_alt cs o names tys ids b = Some (b', id) -> grows b b' id.
Proof.
  unfold gen_alt. destruct (map_get nats_eqb ids (alt_map b)) as [k|].
  - intros E. injection E as <- <-. split; [reflexivity|left; reflexivity].
  - destruct (new_type_name _ _ _ _) as [[[x ident] b1]|] eqn:En; [|discriminate].
    apply new_type_name_inv in En as (-> & nm & ->). destruct (ids_ok _ _); [|discriminate].
    destruct (name_parts _ _ _ _ _) as [parts|]; [|discriminate]. intros E. injection E as <- <-.
    destruct (forallb _ ids); (split; [reflexivity|right; eexists; split; reflexivity]).
Qed.
Lemma gen_variable_grows i b b' id : gen_variable i b = Some (b', id) -> grows b b' id.
Proof.
  unfold gen_variable. destruct (nth_error (context b) i) as [f|]; [|discriminate].
  destruct (map_get Nat.eqb f (var_map b)) as [k|].
  - intros E. injection E as <- <-. split; [reflexivity|left; reflexivity].
  - destruct (nth_error (data b) f) as [fe|]; [|discriminate]. intros E. injection E as <- <-.
    split; [reflexivity|right; eexists; split; reflexivity].
Qed.

(** A step whose result has good left edges. *)
Lemma grows_left b b' id : grows b b' id -> closed (data b) -> left_wf (data b) ->
  (forall y, In y (lefts (data b') id) -> y < length (data b)) ->
  left_wf (data b').
Proof.
  intros (_ & [E|(en & E & ->)]) Hc Hw Hl; rewrite E in *; [exact Hw|]. apply left_wf_push; assumption.
Qed.
Lemma grows_reach b b' id a : grows b b' id -> closed (data b) -> closed (data b') -> id <> a ->
  (forall y, In y (lefts (data b') id) -> y < length (data b) /\ ~ lreach (data b) y a) ->
  ~ lreach (data b') id a.
Proof.
  intros (_ & Hd) Hc Hc' Hne Hl H. inversion H as [|? y ? Hy Hya]; subst; [contradiction|].
  destruct (Hl y Hy) as [H1 H2]. apply H2. destruct Hd as [E|(en & E & ->)]; rewrite E in *; [exact Hya|]. eapply lreach_app; eauto.
Qed.
Lemma grows_alone b b' id a : grows b b' id -> closed (data b) -> a < length (data b) -> alone (data b) a ->
  (forall y, In y (lefts (data b') id) -> y < length (data b) /\ ~ lreach (data b) y a) -> alone (data b') a.
Proof.
  intros (_ & Hd) Hc Ha Hal Hl. destruct Hd as [E|(en & E & ->)]; rewrite E in *; [exact Hal|]. apply alone_push; assumption.
Qed.

(** ** The generator *)
Section Left.
  Variable cs : casing.

  Definition guarded (G : cenv) (ctx : list nat) (a : nat) : Prop :=
    exists i t, nth_error G i = Some (false, t) /\ nth_error ctx i = Some a.

  Definition away (b : bst) (m : info) (a : nat) (e : texpr) : Prop :=
    alone (data b) a \/ exists c, In c (first_set (tau m a)) /\ ~ In c (first_set (get_type e)).

  Definition lspec (e : texpr) : Prop := forall G b m, inv b m -> map snd G = map (tau m) (context b) -> wt G e ->
    names_ok cs e -> (forall f, In f (context b) -> tsize e < sz m f) ->
    Forall (fun x => ty_productive (snd x)) G -> left_wf (data b) ->
    (forall a, guarded G (context b) a -> (forall c, In c (first_set (get_type e)) -> In c (first_set (tau m a))) /\ away b m a e) ->
    forall b' id, gen cs e b = Some (b', id) ->
    left_wf (data b') /\ (forall a, guarded G (context b) a -> ~ lreach (data b') id a)
    /\ ((forall c, ~ In c (first_set (get_type e))) -> forall a, guarded G (context b) a -> alone (data b) a -> alone (data b') a).

  Lemma guarded_ctx G ctx a : guarded G ctx a -> In a ctx.
  Proof. intros (i & t & _ & H). eapply nth_error_In; eauto. Qed.
  Lemma guarded_ung G ctx a : ~ guarded (ung G) ctx a.
  Proof.
    intros (i & t & H & _). unfold ung in H. rewrite nth_error_map in H. destruct (nth_error G i); discriminate.
  Qed.
  Lemma prod_ung G : Forall (fun x : bool * ty => ty_productive (snd x)) G -> Forall (fun x : bool * ty => ty_productive (snd x)) (ung G).
  Proof. unfold ung. induction 1; constructor; auto. Qed.

  Lemma gen_seq_left l : Forall lspec l -> forall G b m, inv b m -> map snd G = map (tau m) (context b) ->
    Forall (wt (ung G)) l -> Forall (names_ok cs) l ->
    (forall e f, In e l -> In f (context b) -> tsize e < sz m f) ->
    Forall (fun x => ty_productive (snd x)) G -> left_wf (data b) ->
    forall b' ids, gen_list (gen cs) l b = Some (b', ids) -> left_wf (data b') /\ exists l, data b' = data b ++ l.
  Proof.
    induction 1 as [|e l He Hl IH]; intros G b m I HG Hw Hn Hs Hp Hl' b' ids E; cbn [gen_list] in E.
    - injection E as <- <-. split; [exact Hl'|]. exists []. symmetry. apply app_nil_r.
    - inversion Hw as [|? ? Hwt Hw']; subst. inversion Hn as [|? ? Hne Hn']; subst.
      assert (Hse : forall f, In f (context b) -> tsize e < sz m f) by (intros f Hf; apply Hs; [left; reflexivity|exact Hf]).
      assert (HG' : map snd (ung G) = map (tau m) (context b)) by (rewrite ung_snd; exact HG).
      destruct (gen_spec cs e (ung G) b m I HG' Hwt Hne Hse) as (b1 & id & m1 & E1 & R1).
      rewrite E1 in E. destruct (gen_list (gen cs) l b1) as [[b2 ids2]|] eqn:E2; [|discriminate]. injection E as <- <-.
      destruct (He (ung G) b m I HG' Hwt Hne Hse (prod_ung _ Hp) Hl') with (b' := b1) (id := id) as (La & _ & _); [|exact E1|].
      { intros a Ha. exfalso. eapply guarded_ung; eauto. }
      destruct R1 as [I1 [l1 D1] [k1 M1] L1 T1 Z1 C1 N1].
      destruct (IH G b1 m1 I1) with (b' := b2) (ids := ids2) as [Lb [l2 D2]]; auto.
      + rewrite C1, HG, M1. symmetry. apply ctx_tau_app. exact I.
      + intros x f Hx Hf. rewrite C1 in Hf. rewrite M1, sz_app by (eapply ctx_lt; eauto). apply Hs; [right; exact Hx|exact Hf].
      + split; [exact Lb|]. exists (l1 ++ l2). rewrite D2, D1, app_assoc. reflexivity.
  Qed.

  Definition firsts_apart (x y : texpr) : Prop := forall c, In c (first_set (get_type x)) -> In c (first_set (get_type y)) -> False.

  Lemma gen_alts_left l : Forall lspec l -> ForallOrdPairs firsts_apart l -> forall G b m, inv b m -> map snd G = map (tau m) (context b) ->
    Forall (wt G) l -> Forall (names_ok cs) l ->
    (forall e f, In e l -> In f (context b) -> tsize e < sz m f) ->
    Forall (fun x => ty_productive (snd x)) G -> left_wf (data b) ->
    (forall a, guarded G (context b) a -> (forall e c, In e l -> In c (first_set (get_type e)) -> In c (first_set (tau m a)))
       /\ (alone (data b) a \/ exists c, In c (first_set (tau m a)) /\ forall e, In e l -> ~ In c (first_set (get_type e)))) ->
    forall b' ids, gen_list (gen cs) l b = Some (b', ids) ->
    left_wf (data b') /\ (forall a, guarded G (context b) a -> forall id, In id ids -> ~ lreach (data b') id a)
    /\ ((forall e c, In e l -> ~ In c (first_set (get_type e))) -> forall a, guarded G (context b) a -> alone (data b) a -> alone (data b') a)
    /\ exists l, data b' = data b ++ l.
  Proof.
    induction 1 as [|e l He Hl IH]; intros Hpairs G b m I HG Hw Hn Hs Hp Hl' Hg b' ids E; cbn [gen_list] in E.
    - injection E as <- <-. split; [exact Hl'|]. split; [intros a _ id []|]. split; [auto|]. exists []. symmetry. apply app_nil_r.
    - inversion Hw as [|? ? Hwt Hw']; subst. inversion Hn as [|? ? Hne Hn']; subst. inversion Hpairs as [|? ? Hp1 Hp2]; subst.
      assert (Hse : forall f, In f (context b) -> tsize e < sz m f) by (intros f Hf; apply Hs; [left; reflexivity|exact Hf]).
      destruct (gen_spec cs e G b m I HG Hwt Hne Hse) as (b1 & id & m1 & E1 & R1).
      rewrite E1 in E. destruct (gen_list (gen cs) l b1) as [[b2 ids2]|] eqn:E2; [|discriminate]. injection E as <- <-.
      destruct (He G b m I HG Hwt Hne Hse Hp Hl') with (b' := b1) (id := id) as (La & Lb & Lc); [|exact E1|].
      { intros a Ha. destruct (Hg a Ha) as [G1 G2]. split; [intros c; apply G1; left; reflexivity|].
        destruct G2 as [G2|(c & G2 & G3)]; [left; exact G2|right; exists c; split; [exact G2|apply G3; left; reflexivity]]. }
      destruct R1 as [I1 [l1 D1] [k1 M1] L1 T1 Z1 C1 N1].
      assert (Hta : forall a, guarded G (context b) a -> tau m1 a = tau m a).
      { intros a Ha. rewrite M1. apply tau_app. eapply ctx_lt; [exact I|]. eapply guarded_ctx; eauto. }
      destruct (IH Hp2 G b1 m1 I1) with (b' := b2) (ids := ids2) as (Ld & Le & Lf & l2 & D2); auto.
      + rewrite C1, HG, M1. symmetry. apply ctx_tau_app. exact I.
      + intros x f Hx Hf. rewrite C1 in Hf. rewrite M1, sz_app by (eapply ctx_lt; eauto). apply Hs; [right; exact Hx|exact Hf].
      + intros a Ha. rewrite C1 in Ha. rewrite (Hta a Ha). destruct (Hg a Ha) as [G1 G2]. split; [intros x c Hx; apply G1; right; exact Hx|].
        destruct G2 as [G2|(c & G2 & G3)]; [|right; exists c; split; [exact G2|intros x Hx; apply G3; right; exact Hx]].
        destruct (first_set (get_type e)) as [|c cs0] eqn:Ef.
        * left. apply Lc; auto.
        * right. exists c. assert (Hc : In c (first_set (get_type e))) by (rewrite Ef; left; reflexivity).
          split; [apply (G1 e); [left; reflexivity|exact Hc]|]. intros x Hx Hcx. rewrite Forall_forall in Hp1. exact (Hp1 x Hx c Hc Hcx).
      + rewrite C1 in Le, Lf. split; [exact Ld|]. split; [|split].
        * intros a Ha i [<-|Hi]; [|apply Le; assumption]. intros Hr. apply (Lb a Ha). rewrite D2 in Hr.
          eapply lreach_app; [eapply inv_closed; exact I1| |exact Hr]. inversion L1; assumption.
        * intros Hno a Ha Hal. apply Lf; [intros x c Hx; apply Hno; right; exact Hx|exact Ha|].
          apply Lc; [intros c; apply Hno; left; reflexivity|exact Ha|exact Hal].
        * exists (l1 ++ l2). rewrite D2, D1, app_assoc. reflexivity.
  Qed.

  Lemma wt_branches_apart G t es t' : wt_branches G t es t' ->
    Forall (fun e => forall c, In c (first_set t) -> In c (first_set (get_type e)) -> False) es /\ ForallOrdPairs firsts_apart es.
  Proof.
    induction 1 as [G t|G t e es t' He Hn Hd Hs [IH1 IH2]]; [split; constructor|].
    rewrite cset_disjoint_spec in Hd. split.
    - constructor; [exact Hd|]. eapply Forall_impl; [|exact IH1]. intros x Hx c Hc. apply Hx. apply alt_first. auto.
    - constructor; [|exact IH2]. eapply Forall_impl; [|exact IH1]. intros x Hx c Hc. apply Hx. apply alt_first. auto.
  Qed.

  Theorem gen_left e : lspec e.
  Proof.
    induction e using texpr_ind'; intros G b m I HG Hwt Hn Hs Hp Hl Hg b' id E; pose proof Hwt as Hwt0; inversion Hwt; subst.
    - cbn [gen] in E. destruct (gen_epsilon_def b m b' id I E) as [Hd Hk]. pose proof (gen_epsilon_grows b m b' id I E) as Hgr.
      assert (Hlf : lefts (data b') id = []) by (unfold lefts; rewrite Hd; reflexivity).
      destruct (gen_spec cs _ G b m I HG Hwt0 Hn Hs) as (b1 & id1 & m1 & E1 & R1). cbn [gen] in E1. rewrite E in E1. injection E1 as <- <-.
      pose proof (inv_closed _ _ I) as Hc. pose proof (inv_closed _ _ (g_inv _ _ _ _ _ _ _ R1)) as Hc'.
      split; [|split].
      + eapply grows_left; eauto. rewrite Hlf. contradiction.
      + intros a0 Ha. eapply grows_reach; eauto; [|rewrite Hlf; contradiction].
        intros ->. apply guarded_ctx in Ha. rewrite <- (proj1 (proj2 Hk)) in Ha. apply (i_ctx _ _ (g_inv _ _ _ _ _ _ _ R1)) in Ha. congruence.
      + intros _ a0 Ha Hal. eapply grows_alone; eauto; [|rewrite Hlf; contradiction].
        rewrite <- (i_len _ _ I). eapply ctx_lt; eauto. eapply guarded_ctx; eauto.
    - cbn [gen] in E. destruct (gen_literal_def cs _ _ b m b' id I E) as [[ch Hd] Hk]. pose proof (gen_literal_grows _ _ _ _ _ _ E) as Hgr.
      assert (Hlf : lefts (data b') id = []) by (unfold lefts; rewrite Hd; reflexivity).
      destruct (gen_spec cs _ G b m I HG Hwt0 Hn Hs) as (b1 & id1 & m1 & E1 & R1). cbn [gen] in E1. rewrite E in E1. injection E1 as <- <-.
      pose proof (inv_closed _ _ I) as Hc. pose proof (inv_closed _ _ (g_inv _ _ _ _ _ _ _ R1)) as Hc'.
      split; [|split].
      + eapply grows_left; eauto. rewrite Hlf. contradiction.
      + intros a0 Ha. eapply grows_reach; eauto; [|rewrite Hlf; contradiction].
        intros ->. apply guarded_ctx in Ha. rewrite <- (proj1 (proj2 Hk)) in Ha. apply (i_ctx _ _ (g_inv _ _ _ _ _ _ _ R1)) in Ha. congruence.
      + intros _ a0 Ha Hal. eapply grows_alone; eauto; [|rewrite Hlf; contradiction].
        rewrite <- (i_len _ _ I). eapply ctx_lt; eauto. eapply guarded_ctx; eauto.
    - (* concatenation *)
      destruct (gen_spec cs _ G b m I HG Hwt0 Hn Hs) as (b0 & id0 & m0 & E0 & R0). rewrite E in E0. injection E0 as <- <-.
      rewrite gen_cat_eq in E. cbn [gen_list] in E.
      assert (Hn2 : Forall (names_ok cs) (e :: es)).
      { apply names_ok_list. unfold names_ok in Hn. cbn [t_names] in Hn. apply Forall_app in Hn. apply Hn. }
      inversion Hn2 as [|? ? Hne Hnes]; subst. inversion H as [|? ? IHe IHes]; subst.
      assert (Hsz : forall x f, In x (e :: es) -> In f (context b) -> tsize x < sz m f).
      { intros y f Hy Hf. specialize (Hs f Hf). cbn [tsize] in Hs. pose proof (tsize_list _ _ Hy). lia. }
      assert (Hse : forall f, In f (context b) -> tsize e < sz m f) by (intros f Hf; apply Hsz; [left; reflexivity|exact Hf]).
      match goal with X : wt G e |- _ => rename X into Hwe end.
      match goal with X : nullable (get_type e) = false |- _ => rename X into Hnull end.
      match goal with X : wt_seq _ _ _ _ |- _ => rename X into Hseq end.
      destruct (gen_spec cs e G b m I HG Hwe Hne Hse) as (b1 & x & m1 & E1 & R1). rewrite E1 in E.
      destruct (gen_list (gen cs) es b1) as [[b2 xs]|] eqn:E2; [|discriminate].
      assert (Hfirst : forall c, In c (first_set t) <-> In c (first_set (get_type e))).
      { assert (Hso : seq_ok (fun _ => ty_default) (get_type e) [] (get_type e)) by constructor. clear Hso.
        pose proof (wt_seq_ok _ _ _ _ Hseq (fun k => nth k (map get_type es) ty_default) (seq 0 (length es))) as Hso.
        assert (Hm : map (fun k => nth k (map get_type es) ty_default) (seq 0 (length es)) = map get_type es).
        { clear. induction es as [|y l IH]; [reflexivity|]. cbn [length seq map nth]. f_equal. rewrite <- seq_shift, map_map. exact IH. }
        specialize (Hso Hm). apply (seq_ok_first _ _ _ _ Hso Hnull). }
      cbn [get_type] in Hg |- *.
      destruct (IHe G b m I HG Hwe Hne Hse Hp Hl) with (b' := b1) (id := x) as (La & Lb & Lc); [|exact E1|].
      { intros a0 Ha. destruct (Hg a0 Ha) as [G1 G2]. split; [intros c Hc; apply G1, Hfirst; exact Hc|].
        destruct G2 as [G2|(c & G2 & G3)]; [left; exact G2|right; exists c]. cbn [get_type] in G3. rewrite <- Hfirst. auto. }
      destruct R1 as [I1 [l1 D1] [k1 M1] L1 T1 Z1 C1 N1].
      assert (HG1 : map snd G = map (tau m1) (context b1)).
      { rewrite C1, HG, M1. symmetry. apply ctx_tau_app. exact I. }
      assert (Hsz1 : forall e f, In e es -> In f (context b1) -> tsize e < sz m1 f).
      { intros y f Hy Hf. rewrite C1 in Hf. rewrite M1, sz_app by (eapply ctx_lt; eauto). apply Hsz; [right; exact Hy|exact Hf]. }
      destruct (gen_seq_left es IHes G b1 m1 I1 HG1 (wt_seq_all _ _ _ _ Hseq) Hnes Hsz1 Hp La b2 xs E2) as [Ld [l2 D2]].
      assert (HIes : Forall (gspec cs) es) by (rewrite Forall_forall; intros y _; apply gen_spec).
      destruct (gen_list_spec cs es HIes b1 m1 I1) as (b2' & xs' & m2 & E2' & R2); auto.
      { apply wt_seq_all in Hseq. eapply Forall_impl; [|exact Hseq]. intros y Hy. exists (ung G). rewrite ung_snd. auto. }
      rewrite E2 in E2'. injection E2' as <- <-.
      pose proof (g_inv _ _ _ _ _ _ _ R2) as I2. pose proof (g_inv _ _ _ _ _ _ _ R0) as I0.
      destruct (gen_cat_def cs _ _ _ _ _ _ _ I2 E) as [(nm & p & Hd) Hk]. pose proof (gen_cat_grows _ _ _ _ _ _ _ E) as Hgr.
      assert (Hlf : lefts (data b') id = [x]) by (unfold lefts; rewrite Hd; reflexivity).
      assert (Hx1 : x < length (data b1)) by (inversion L1; assumption).
      assert (Hx2 : x < length (data b2)) by (rewrite D2, app_length; lia).
      pose proof (inv_closed _ _ I1) as Hc1. pose proof (inv_closed _ _ I2) as Hc2. pose proof (inv_closed _ _ I0) as Hc0.
      assert (Hxa : forall a, guarded G (context b) a -> ~ lreach (data b2) x a).
      { intros a0 Ha Hr. apply (Lb a0 Ha). rewrite D2 in Hr. eapply lreach_app; eauto. }
      split; [|split].
      + eapply grows_left; eauto. rewrite Hlf. intros y [<-|[]]. exact Hx2.
      + intros a0 Ha. eapply grows_reach; eauto.
        * intros ->. apply guarded_ctx in Ha. rewrite <- (g_ctx _ _ _ _ _ _ _ R0) in Ha. apply (i_ctx _ _ I0) in Ha. congruence.
        * rewrite Hlf. intros y [<-|[]]. auto.
      + intros Hno. exfalso. destruct (proj1 wt_productive _ _ Hwe) as [H1|[c Hc]]; [|congruence|].
        * intros i t0 Hi. apply nth_error_In in Hi. rewrite Forall_forall in Hp. exact (Hp _ Hi).
        * apply (Hno c). apply Hfirst. exact Hc.
    - (* alternation *)
      destruct (gen_spec cs _ G b m I HG Hwt0 Hn Hs) as (b0 & id0 & m0 & E0 & R0). rewrite E in E0. injection E0 as <- <-.
      rewrite gen_alt_eq in E. destruct (gen_list (gen cs) (e :: es) b) as [[b1 ids]|] eqn:El; [|discriminate].
      assert (Hn2 : Forall (names_ok cs) (e :: es)).
      { apply names_ok_list. unfold names_ok in Hn. cbn [t_names] in Hn. apply Forall_app in Hn. apply Hn. }
      match goal with X : wt G e |- _ => rename X into Hwe end.
      match goal with X : wt_branches _ _ _ _ |- _ => rename X into Hbr end.
      assert (Hw : Forall (wt G) (e :: es)) by (constructor; [exact Hwe|eapply wt_branches_all; eauto]).
      assert (Hsz : forall x f, In x (e :: es) -> In f (context b) -> tsize x < sz m f).
      { intros y f Hy Hf. specialize (Hs f Hf). cbn [tsize] in Hs. pose proof (tsize_list _ _ Hy). lia. }
      assert (Hpairs : ForallOrdPairs firsts_apart (e :: es)).
      { destruct (wt_branches_apart _ _ _ _ Hbr) as [A B]. constructor; [exact A|exact B]. }
      assert (Hfirst : forall c, In c (first_set t) <-> exists x, In x (e :: es) /\ In c (first_set (get_type x))).
      { clear - Hbr. intros c. 
        assert (G0 : forall t es t', wt_branches G t es t' -> In c (first_set t') <-> In c (first_set t) \/ exists x, In x es /\ In c (first_set (get_type x))).
        { clear. induction 1 as [G t|G t e es t' He Hn Hd Hs IH].
          - split; [auto|intros [H|(x & [] & _)]; exact H].
          - rewrite IH, alt_first. split.
            + intros [[H|H]|(x & Hx & H)]; [auto|right; exists e; cbn; auto|right; exists x; cbn; auto].
            + intros [H|(x & [->|Hx] & H)]; eauto. }
        rewrite (G0 _ _ _ Hbr). split.
        - intros [H|(x & Hx & H)]; [exists e; cbn; auto|exists x; cbn; auto].
        - intros (x & [->|Hx] & H); eauto. }
      cbn [get_type] in Hg |- *.
      destruct (gen_alts_left _ H Hpairs G b m I HG Hw Hn2 Hsz Hp Hl) with (b' := b1) (ids := ids) as (La & Lb & Lc & l1 & D1); [|exact El|].
      { intros a0 Ha. destruct (Hg a0 Ha) as [G1 G2]. split.
        - intros x c Hx Hc. apply G1. apply Hfirst. eauto.
        - destruct G2 as [G2|(c & G2 & G3)]; [left; exact G2|right; exists c; split; [exact G2|]].
          intros x Hx Hc. apply G3. cbn [get_type]. apply Hfirst. eauto. }
      assert (HIes : Forall (gspec cs) (e :: es)) by (rewrite Forall_forall; intros y _; apply gen_spec).
      destruct (gen_list_spec cs (e :: es) HIes b m I) as (b1' & ids' & m1 & El' & R1); auto.
      { eapply Forall_impl; [|exact Hw]. intros y Hy. exists G. auto. }
      rewrite El in El'. injection El' as <- <-.
      pose proof (g_inv _ _ _ _ _ _ _ R1) as I1. pose proof (g_inv _ _ _ _ _ _ _ R0) as I0.
      destruct (gen_alt_def cs _ _ _ _ _ _ _ _ I1 (eq_sym (g_tau _ _ _ _ _ _ _ R1)) E) as [(p & ch & Hd) Hk]. pose proof (gen_alt_grows _ _ _ _ _ _ _ _ E) as Hgr.
      assert (Hlf : lefts (data b') id = ids) by (unfold lefts; rewrite Hd; reflexivity).
      pose proof (inv_closed _ _ I1) as Hc1. pose proof (inv_closed _ _ I0) as Hc0.
      assert (Hids : forall y, In y ids -> y < length (data b1)) by (apply Forall_forall; apply R1).
      split; [|split].
      + eapply grows_left; eauto. rewrite Hlf. exact Hids.
      + intros a0 Ha. eapply grows_reach; eauto.
        * intros ->. apply guarded_ctx in Ha. rewrite <- (g_ctx _ _ _ _ _ _ _ R0) in Ha. apply (i_ctx _ _ I0) in Ha. congruence.
        * rewrite Hlf. intros y Hy. auto.
      + intros Hno a0 Ha Hal. eapply grows_alone; eauto.
        * rewrite D1, app_length. pose proof (ctx_lt b m a0 I (guarded_ctx _ _ _ Ha)). rewrite (i_len _ _ I) in H0. lia.
        * apply Lc; auto. intros x c Hx Hc. apply (Hno c). apply Hfirst. eauto.
        * rewrite Hlf. intros y Hy. auto.
    - (* fixed point *)
      cbn [get_type] in Hg |- *. pose proof E as E'. cbn [gen] in E. destruct (map_get texpr_eqb e (fix_map b)) as [k|] eqn:Eg.
      + injection E as <- <-. split; [exact Hl|]. split; [|auto].
        intros a0 Ha Hr. apply map_get_In in Eg as (e' & Hk & Eeq).
        destruct (i_fix _ _ I _ _ Hk) as (Htk & Hsk & _). destruct (Hg a0 Ha) as [_ [G2|(c & G2 & G3)]].
        * apply G2 in Hr. subst k. specialize (Hs a0 (guarded_ctx _ _ _ Ha)). cbn [tsize] in Hs.
          rewrite Hsk, (texpr_eqb_size _ _ Eeq) in Hs. lia.
        * apply G3. cbn [get_type]. rewrite (texpr_eqb_type _ _ Eeq), <- Htk. eapply lreach_first; eauto.
      + destruct (new_type_name _ _ _ _) as [[[x ident] b1]|] eqn:En; [|discriminate].
        apply new_type_name_inv in En as (-> & nm & ->). cbv zeta in E.
        assert (Hlen : length m = length (data b)) by apply I.
        pose proof (inv_hole b m ident e nm _ _ I eq_refl eq_refl) as I1. cbv zeta in I1.
        set (b1 := Bst _ _ _ _ _ _ _ _ _ _) in I1.
        assert (Eb : set_context (length (data b) :: context (push_entry (Entry (TnIdent ident) (DFix None) []) (set_fix_map ((e, length (data b)) :: fix_map (set_name_map nm b)) (set_name_map nm b))))
                (push_entry (Entry (TnIdent ident) (DFix None) []) (set_fix_map ((e, length (data b)) :: fix_map (set_name_map nm b)) (set_name_map nm b))) = b1).
        { pose proof (i_eps _ _ I) as He. unfold b1. destruct b; cbn in *. subst. reflexivity. }
        rewrite Eb in E. clear Eb.
        set (m1 := m ++ [(get_type e, S (tsize e))]) in *.
        assert (P1 : map snd ((false, get_type e) :: G) = map (tau m1) (context b1)).
        { cbn [map snd context b1]. unfold m1. rewrite HG. rewrite (ctx_tau_app b m _ I). rewrite <- Hlen, tau_new. reflexivity. }
        assert (P2 : names_ok cs e).
        { unfold names_ok in *. cbn [t_names] in Hn. apply Forall_app in Hn. apply Hn. }
        assert (P3 : forall f, In f (context b1) -> tsize e < sz m1 f).
        { unfold m1. intros f [<-|Hf]; [rewrite <- Hlen, sz_new; lia|].
          specialize (Hs f Hf). cbn [tsize] in Hs. rewrite sz_app by (eapply ctx_lt; eauto). lia. }
        match goal with H : wt (_ :: G) e |- _ => rename H into Hwe end.
        destruct (gen_spec cs e ((false, get_type e) :: G) b1 _ I1 P1 Hwe P2 P3) as (b4 & j & m4 & E4 & R4).
        rewrite E4 in E.
        pose proof (inv_closed _ _ I) as Hc. pose proof (inv_closed _ _ I1) as Hc1.
        assert (Hp1 : Forall (fun x => ty_productive (snd x)) ((false, get_type e) :: G)).
        { constructor; [|exact Hp]. cbn [snd]. apply (proj1 wt_productive _ _ Hwe).
          intros [|i] t0 Hi; [discriminate|]. cbn in Hi. apply nth_error_In in Hi. rewrite Forall_forall in Hp. exact (Hp _ Hi). }
        set (h := length (data b)) in *.
        assert (Dh : data b1 = data b ++ [Entry (TnIdent ident) (DFix None) []]) by reflexivity.
        assert (Hlh : lefts (data b1) h = []).
        { rewrite Dh. unfold lefts, h. rewrite def_new. reflexivity. }
        assert (Hl1 : left_wf (data b1)).
        { rewrite Dh. apply left_wf_push; auto. fold h. rewrite <- Dh, Hlh. contradiction. }
        assert (Hal1 : forall a, guarded G (context b) a -> alone (data b) a -> alone (data b1) a).
        { intros a0 Ha Hal. rewrite Dh. apply alone_push; auto.
          - fold h; rewrite <- Hlen. eapply ctx_lt; [exact I|]. eapply guarded_ctx; eauto.
          - fold h. rewrite <- Dh, Hlh. contradiction. }
        assert (Hlt : forall a, guarded G (context b) a -> a < length m) by (intros a0 Ha; eapply ctx_lt; [exact I|]; eapply guarded_ctx; eauto).
        assert (Htau : forall a, guarded G (context b) a -> tau m1 a = tau m a) by (intros a0 Ha; apply tau_app; auto).
        assert (Hg1 : forall a, guarded ((false, get_type e) :: G) (context b1) a ->
          (forall c, In c (first_set (get_type e)) -> In c (first_set (tau m1 a))) /\ away b1 m1 a e).
        { intros a0 ([|i] & t0 & Hi & Hi').
          - cbn in Hi'. injection Hi' as <-. split; [unfold m1; rewrite <- Hlen, tau_new; auto|].
            left. intros x Hx. destruct (Nat.lt_ge_cases x h) as [Hxh|Hxh].
            + exfalso. rewrite Dh in Hx. apply lreach_app in Hx; [|exact Hc|exact Hxh]. apply lreach_lt in Hx; [unfold h in *; lia|exact Hc|exact Hxh].
            + destruct (Nat.eq_dec x h) as [->|Hne]; [reflexivity|]. inversion Hx as [|? y ? Hy _]; subst; [reflexivity|].
              rewrite lefts_out in Hy; [contradiction|]. rewrite Dh, app_length. cbn. unfold h in *. lia.
          - cbn in Hi, Hi'. assert (Ha : guarded G (context b) a0) by (exists i, t0; auto).
            rewrite (Htau a0 Ha). destruct (Hg a0 Ha) as [G1 G2]. split; [exact G1|].
            destruct G2 as [G2|(c & G2 & G3)]; [left; auto|right; exists c; rewrite (Htau a0 Ha); auto]. }
        destruct (IHe _ b1 _ I1 P1 Hwe P2 P3 Hp1 Hl1 Hg1 b4 j E4) as (La & Lb & Lc).
        cbn [data set_context] in E. destruct (nth_error (data b4) j) as [ej|] eqn:Ej; [|discriminate].
        destruct (Nat.ltb _ _) eqn:Elt; [|discriminate]. injection E as <- <-.
        fold (fill h j (data b4)). cbn [data set_data].
        assert (Hhole : def_of (data b4) h = Some (DFix None)).
        { apply (i_ctx _ _ (g_inv _ _ _ _ _ _ _ R4)). rewrite (g_ctx _ _ _ _ _ _ _ R4). left. reflexivity. }
        assert (Hjh : ~ lreach (data b4) j h) by (apply Lb; exists 0, (get_type e); auto).
        assert (Hja : forall a, guarded G (context b) a -> ~ lreach (data b4) j a).
        { intros a0 (i & t0 & Hi & Hi'). apply Lb. exists (S i), t0. auto. }
        split; [apply left_wf_fill; assumption|]. split.
        * intros a0 Ha Hr. inversion Hr as [|? y ? Hy Hya]; subst; [specialize (Hlt _ Ha); lia|].
          rewrite lefts_fill, Nat.eqb_refl in Hy by exact Hhole. destruct Hy as [<-|[]].
          apply (Hja a0 Ha). eapply lreach_fill_avoid; eauto.
        * intros Hno a0 Ha Hal. apply alone_fill; auto.
          apply Lc; [exact Hno| |auto]. destruct Ha as (i & t0 & Hi & Hi'). exists (S i), t0. auto.
    - (* variable *)
      destruct (gen_spec cs _ G b m I HG Hwt0 Hn Hs) as (b1 & id1 & m1 & E1 & R1). rewrite E in E1. injection E1 as <- <-.
      cbn [gen] in E. destruct (gen_variable_def i b m b' id I E) as [(f & Hf & Hd) Hk]. pose proof (gen_variable_grows _ _ _ _ E) as Hgr.
      assert (Hlf : lefts (data b') id = [f]) by (unfold lefts; rewrite Hd; reflexivity).
      pose proof (inv_closed _ _ I) as Hc. pose proof (inv_closed _ _ (g_inv _ _ _ _ _ _ _ R1)) as Hc'.
      assert (Hfin : In f (context b)) by (eapply nth_error_In; eauto).
      assert (Hflt : f < length (data b)) by (rewrite <- (i_len _ _ I); eapply ctx_lt; eauto).
      assert (Hfa : forall a, guarded G (context b) a -> ~ lreach (data b) f a).
      { intros a0 (i' & t' & Hi & Hi') Hr. inversion Hr as [|? y ? Hy _]; subst.
        - assert (i = i').
          { eapply NoDup_nth_error; [apply I| |congruence]. apply nth_error_Some. congruence. }
          subst i'. congruence.
        - apply (i_ctx _ _ I) in Hfin. unfold lefts in Hy. rewrite Hfin in Hy. contradiction. }
      split; [|split].
      + eapply grows_left; eauto. rewrite Hlf. intros y [<-|[]]. exact Hflt.
      + intros a0 Ha. eapply grows_reach; eauto.
        * intros ->. apply guarded_ctx in Ha. rewrite <- (proj1 (proj2 Hk)) in Ha. apply (i_ctx _ _ (g_inv _ _ _ _ _ _ _ R1)) in Ha. congruence.
        * rewrite Hlf. intros y [<-|[]]. auto.
      + intros _ a0 Ha Hal. eapply grows_alone; eauto.
        * rewrite <- (i_len _ _ I). eapply ctx_lt; eauto. eapply guarded_ctx; eauto.
        * rewrite Hlf. intros y [<-|[]]. auto.
  Qed.

  Corollary generate_left e b id : wt [] e -> names_ok cs e -> generate cs e = Some (b, id) -> left_wf (data b).
  Proof.
    intros Hwt Hn E. apply (gen_left e [] bst_default [] inv_default eq_refl Hwt Hn) in E.
    - apply E.
    - cbn. contradiction.
    - constructor.
    - intros x. constructor. intros y Hy. unfold lefts, def_of in Hy. cbn in Hy. destruct x; contradiction.
    - intros a (i & t & H & _). destruct i; discriminate.
  Qed.
End Left.
