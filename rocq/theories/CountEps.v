(** * CountEps: how many types are generated when there are epsilons. *)
From Verif Require Export CountFacts.
From Verif Require Import PropGen.
From Coq Require Import List Lia.
Open Scope list_scope.

(** ** What the steps of the generator do *)
Lemma gen_literal_cases cs o s b b' id : gen_literal cs o s b = Some (b', id) ->
  (map_get rstr_eqb s (lit_map b) = Some id /\ b' = b) \/
  (map_get rstr_eqb s (lit_map b) = None /\ id = length (data b) /\ exists en c, en_def en = DLit s c /\ data b' = data b ++ [en]
    /\ lit_map b' = (s, id) :: lit_map b /\ cat_map b' = cat_map b /\ alt_map b' = alt_map b /\ eps_id b' = eps_id b).
Proof.
  unfold gen_literal. destruct (map_get rstr_eqb s (lit_map b)) eqn:Eg; [intros E; injection E as <- <-; now left |].
  destruct (new_type_name _ _ _ _) as [[[x ident] b1]|] eqn:En; [|discriminate]. apply new_type_name_inv in En as (-> & nm & ->). intros E. right.
  split; [reflexivity |]. destruct s as [|c [|c' s]]; injection E as <- <-; (split; [reflexivity |]); eexists _, _; (split; [| split; [reflexivity |]]); try reflexivity; auto.
Qed.
Lemma gen_cat_cases cs o names ids b b' id : gen_cat cs o names ids b = Some (b', id) ->
  (map_get nats_eqb ids (cat_map b) = Some id /\ b' = b) \/
  (map_get nats_eqb ids (cat_map b) = None /\ id = length (data b) /\ exists en n p, en_def en = DCat n p ids /\ data b' = data b ++ [en]
    /\ lit_map b' = lit_map b /\ cat_map b' = (ids, id) :: cat_map b /\ alt_map b' = alt_map b /\ eps_id b' = eps_id b).
Proof.
  unfold gen_cat. destruct (map_get nats_eqb ids (cat_map b)) eqn:Eg; [intros E; injection E as <- <-; now left |].
  destruct (new_type_name _ _ _ _) as [[[x ident] b1]|] eqn:En; [|discriminate]. apply new_type_name_inv in En as (-> & nm & ->).
  destruct (ids_ok _ _); [|discriminate]. destruct (name_parts _ _ _ _ _) as [parts|]; [|discriminate]. intros E. injection E as <- <-. right.
  split; [reflexivity |]. split; [reflexivity |]. eexists _, _, _. split; [| split; [reflexivity | auto]]. reflexivity.
Qed.
Lemma gen_alt_cases cs o names tys ids b b' id : gen_alt cs o names tys ids b = Some (b', id) ->
  (map_get nats_eqb ids (alt_map b) = Some id /\ b' = b) \/
  (map_get nats_eqb ids (alt_map b) = None /\ id = length (data b) /\ exists en p f n a c, en_def en = DAlt p ids f n a c /\ data b' = data b ++ [en]
    /\ lit_map b' = lit_map b /\ cat_map b' = cat_map b /\ alt_map b' = (ids, id) :: alt_map b /\ eps_id b' = eps_id b).
Proof.
  unfold gen_alt. destruct (map_get nats_eqb ids (alt_map b)) eqn:Eg; [intros E; injection E as <- <-; now left |].
  destruct (new_type_name _ _ _ _) as [[[x ident] b1]|] eqn:En; [|discriminate]. apply new_type_name_inv in En as (-> & nm & ->).
  destruct (ids_ok _ _); [|discriminate]. destruct (name_parts _ _ _ _ _) as [parts|]; [|discriminate]. cbv zeta. right.
  split; [reflexivity |]. revert H. destruct (forallb _ _); intros E; injection E as <- <-; (split; [reflexivity |]); eexists _, _, _, _, _, _; (split; [| split; [reflexivity | auto]]); reflexivity.
Qed.

(** ** Types that stand for a grammar without epsilon *)
Definition clear (tab : table) (i : nat) : Prop := exists g, den tab i g.
Definition backward (tab : table) : Prop := forall k i, In i (mentions tab k) -> i < k.
Lemma def_app1 d l i : i < length d -> def_of (d ++ l) i = def_of d i.
Proof. intros H. unfold def_of. now rewrite nth_error_app1. Qed.
Lemma def_lt d i x : def_of d i = Some x -> i < length d.
Proof. unfold def_of. intros H. apply nth_error_Some. destruct (nth_error d i); [discriminate | cbn in H; discriminate]. Qed.
Lemma den_app d l : (forall i g, den d i g -> den (d ++ l) i g) /\ (forall is gs, dens d is gs -> dens (d ++ l) is gs).
Proof.
  assert (K : forall i x, def_of d i = Some x -> def_of (d ++ l) i = Some x).
  { intros i x H. rewrite def_app1; [exact H | eapply def_lt, H]. }
  apply den_mutind; intros; econstructor; eauto.
Qed.
Lemma den_app_inv d l : backward d -> (forall i g, den (d ++ l) i g -> i < length d -> den d i g) /\ (forall is gs, dens (d ++ l) is gs -> Forall (fun i => i < length d) is -> dens d is gs).
Proof.
  intros B. assert (M : forall k x, k < length d -> def_of d k = Some x -> forall i, In i (mentions d k) -> i < length d).
  { intros k x Hk _ i Hi. apply B in Hi. lia. }
  apply den_mutind.
  - intros id s c Hd Hi. rewrite def_app1 in Hd by exact Hi. econstructor; eauto.
  - intros id n p ids gs Hd _ IH Hi. rewrite def_app1 in Hd by exact Hi. econstructor; [exact Hd |]. apply IH. apply Forall_forall. intros j Hj. apply (M id _ Hi Hd). unfold mentions. now rewrite Hd.
  - intros id p ids f n a c gs Hd _ IH Hi. rewrite def_app1 in Hd by exact Hi. econstructor; [exact Hd |]. apply IH. apply Forall_forall. intros j Hj. apply (M id _ Hi Hd). unfold mentions. now rewrite Hd.
  - constructor.
  - intros i is g gs _ IH1 _ IH2 F. inversion F; subst. constructor; auto.
Qed.
Lemma clear_app d l i : backward d -> i < length d -> (clear (d ++ l) i <-> clear d i).
Proof. intros B Hi. split; intros [g H]; exists g; [now apply (proj1 (den_app_inv d l B)) | now apply (proj1 (den_app d l))]. Qed.
Lemma def_last d en : def_of (d ++ [en]) (length d) = Some (en_def en).
Proof. unfold def_of. rewrite nth_error_app2 by lia. now rewrite Nat.sub_diag. Qed.
Lemma backward_push d en : backward d -> (forall i, In i match en_def en with DCat _ _ ids | DAlt _ ids _ _ _ _ => ids | DFix (Some j) => [j] | DBox f => [f] | _ => [] end -> i < length d) -> backward (d ++ [en]).
Proof.
  intros B H k i. unfold mentions. destruct (def_of (d ++ [en]) k) as [x|] eqn:E; [| intros []]. apply def_push in E as [E | [-> ->]].
  - intros Hi. apply B. unfold mentions. now rewrite E.
  - intros Hi. apply H. destruct (en_def en) as [| | | | [j|] |]; exact Hi.
Qed.

(** ** The invariant: [NP] lists the types that are not clear *)
Record counted (b : bst) (NP : list nat) : Prop := {
  k_eps : eps_id b = None;
  k_lit : forall s k, map_get rstr_eqb s (lit_map b) = Some k -> exists c, def_of (data b) k = Some (DLit s c);
  k_cat : forall ids k, map_get nats_eqb ids (cat_map b) = Some k -> exists n p, def_of (data b) k = Some (DCat n p ids);
  k_alt : forall ids k, map_get nats_eqb ids (alt_map b) = Some k -> exists p f n a c, def_of (data b) k = Some (DAlt p ids f n a c);
  k_back : backward (data b);
  k_nodup : NoDup NP;
  k_np : forall i, In i NP <-> i < length (data b) /\ ~ clear (data b) i }.
(** Not clear, and no type is made of it yet. *)
Definition unused (b : bst) (NP : list nat) (j : nat) : Prop :=
  In j NP /\ (forall ids k, map_get nats_eqb ids (cat_map b) = Some k -> ~ In j ids) /\ (forall ids k, map_get nats_eqb ids (alt_map b) = Some k -> ~ In j ids).

Lemma counted_default : counted bst_default [].
Proof.
  split; cbn; try reflexivity; try discriminate; [| constructor |].
  - intros [|k] i H; destruct H.
  - intros i. split; [intros [] | lia].
Qed.

(** Pushing a clear type, or one that is not. *)
Lemma np_clear d en NP : backward d -> clear (d ++ [en]) (length d) -> (forall i, In i NP <-> i < length d /\ ~ clear d i) ->
  forall i, In i NP <-> i < length (d ++ [en]) /\ ~ clear (d ++ [en]) i.
Proof.
  intros B C H i. rewrite H, app_length. cbn. split.
  - intros [Hi Hc]. split; [lia |]. now rewrite clear_app.
  - intros [Hi Hc]. destruct (Nat.eq_dec i (length d)) as [-> | Hn]; [contradiction |]. rewrite clear_app in Hc by (auto; lia). split; [lia | exact Hc].
Qed.
Lemma np_not d en NP : backward d -> ~ clear (d ++ [en]) (length d) -> (forall i, In i NP <-> i < length d /\ ~ clear d i) ->
  forall i, In i (length d :: NP) <-> i < length (d ++ [en]) /\ ~ clear (d ++ [en]) i.
Proof.
  intros B C H i. cbn [In]. rewrite H, app_length. cbn. split.
  - intros [<- | [Hi Hc]]; [split; [lia | exact C] | split; [lia | now rewrite clear_app]].
  - intros [Hi Hc]. destruct (Nat.eq_dec i (length d)) as [-> | Hn]; [now left |]. rewrite clear_app in Hc by (auto; lia). right. split; [lia | exact Hc].
Qed.

Definition stands (L : nat) (b : bst) (NP : list nat) (id : nat) (g : gram) : Prop :=
  id < length (data b) /\ if has_epsilon g then unused b NP id /\ L <= id else den (data b) id g.
Lemma stands_dens L b NP ids gs : Forall2 (stands L b NP) ids gs -> existsb has_epsilon gs = false -> dens (data b) ids gs.
Proof. induction 1 as [| i g ids gs [_ H] _ IH]; cbn; intros E; [constructor |]. apply orb_false_iff in E as [E1 E2]. rewrite E1 in H. constructor; auto. Qed.
Lemma stands_unused L b NP ids gs : Forall2 (stands L b NP) ids gs -> existsb has_epsilon gs = true -> exists j, In j ids /\ unused b NP j.
Proof.
  induction 1 as [| i g ids gs [_ H] _ IH]; cbn; intros E; [discriminate |]. destruct (has_epsilon g) eqn:Eg; [exists i; split; [now left | apply H] |].
  destruct (IH E) as (j & Hj & Hu). exists j. split; [now right | exact Hu].
Qed.
Lemma stands_lt L b NP ids gs : Forall2 (stands L b NP) ids gs -> forall i, In i ids -> i < length (data b).
Proof. induction 1 as [| i g ids gs [H _] _ IH]; intros j []; [now subst | auto]. Qed.
Lemma stands_low L b NP ids gs : Forall2 (stands L b NP) ids gs -> forall i, In i ids -> i < L -> clear (data b) i.
Proof. induction 1 as [| i g ids gs [_ H] _ IH]; intros j []; [subst | auto]. intros Hj. destruct (has_epsilon g); [lia | now exists g]. Qed.
Lemma dens_clear d ids gs : dens d ids gs -> forall i, In i ids -> clear d i.
Proof. intros H i Hi. destruct (dens_left _ _ _ _ H Hi) as (g & _ & Hg). now exists g. Qed.

Definition step_result (L : nat) (b : bst) (NP : list nat) (b' : bst) (id : nat) (extra : nat) (g : gram) : Prop :=
  exists NP', counted b' NP' /\ length NP' = length NP + extra /\ (exists l, data b' = data b ++ l) /\
    (forall j, j < L -> unused b NP j -> unused b' NP' j) /\ stands L b' NP' id g.

Section Step.
  Variable cs : casing.

  Lemma epsilon_step b NP b' id : counted b NP -> gen_epsilon b = Some (b', id) -> step_result (length (data b)) b NP b' id 1 GEps.
  Proof.
    intros K E. unfold gen_epsilon in E. rewrite (k_eps _ _ K) in E. injection E as <- <-. set (en := Entry TnEpsilon DEps []).
    assert (N : ~ clear (data b ++ [en]) (length (data b))). { intros [g H]. inversion H as [i s c D | i n p ids gs D | i p ids f n a c gs D]; subst; rewrite def_last in D; discriminate. }
    exists (length (data b) :: NP). split; [| split; [cbn; lia | split; [exists [en]; reflexivity | split]]].
    - split; cbn [push_entry data lit_map cat_map alt_map eps_id set_data].
      + apply (k_eps _ _ K).
      + intros s k H. destruct (k_lit _ _ K s k H) as (c & D). exists c. rewrite def_app1; [exact D | eapply def_lt, D].
      + intros s k H. destruct (k_cat _ _ K s k H) as (n & p & D). exists n, p. rewrite def_app1; [exact D | eapply def_lt, D].
      + intros s k H. destruct (k_alt _ _ K s k H) as (p & f & n & a & c & D). exists p, f, n, a, c. rewrite def_app1; [exact D | eapply def_lt, D].
      + apply backward_push; [apply (k_back _ _ K) | intros i []].
      + constructor; [| apply (k_nodup _ _ K)]. rewrite (k_np _ _ K). lia.
      + apply np_not; [apply (k_back _ _ K) | exact N | apply (k_np _ _ K)].
    - intros j Hj (H1 & H2 & H3). split; [now right | split; [exact H2 | exact H3]].
    - split; [cbn; rewrite app_length; cbn; lia |]. cbn. split; [| lia]. split; [now left |]. split; cbn; intros ids k H Hi.
      + destruct (k_cat _ _ K ids k H) as (n & p & D). pose proof (def_lt _ _ _ D). assert (length (data b) < k) by (apply (k_back _ _ K); unfold mentions; now rewrite D). lia.
      + destruct (k_alt _ _ K ids k H) as (p & f & n & a & c & D). pose proof (def_lt _ _ _ D). assert (length (data b) < k) by (apply (k_back _ _ K); unfold mentions; now rewrite D). lia.
  Qed.

  Lemma literal_step o s b NP b' id : counted b NP -> gen_literal cs o s b = Some (b', id) -> step_result (length (data b)) b NP b' id 0 (GLit s).
  Proof.
    intros K E. apply gen_literal_cases in E as [[H ->] | (Hm & -> & en & c & D & Hd & M1 & M2 & M3 & M4)].
    - exists NP. split; [exact K |]. split; [lia |]. split; [exists []; now rewrite app_nil_r |]. split; [auto |]. destruct (k_lit _ _ K _ _ H) as (c & D). split; [eapply def_lt, D |]. cbn. econstructor; eauto.
    - assert (N : den (data b') (length (data b)) (GLit s)). { rewrite Hd. econstructor. rewrite def_last, D. reflexivity. }
      exists NP. split; [| split; [lia | split; [exists [en]; exact Hd | split]]].
      + split; rewrite ?M1, ?M2, ?M3, ?M4, ?Hd.
        * apply (k_eps _ _ K).
        * intros s' k H. cbn in H. destruct (rstr_eqb s' s) eqn:Es; [apply rstr_eqb_eq in Es; injection H as <-; subst s'; exists c; rewrite def_last, D; reflexivity |].
          destruct (k_lit _ _ K s' k H) as (c' & D'). exists c'. rewrite def_app1; [exact D' | eapply def_lt, D'].
        * intros ids k H. destruct (k_cat _ _ K ids k H) as (n & p & D'). exists n, p. rewrite def_app1; [exact D' | eapply def_lt, D'].
        * intros ids k H. destruct (k_alt _ _ K ids k H) as (p & f & n & a & c' & D'). exists p, f, n, a, c'. rewrite def_app1; [exact D' | eapply def_lt, D'].
        * apply backward_push; [apply (k_back _ _ K) | rewrite D; intros i []].
        * apply (k_nodup _ _ K).
        * apply np_clear; [apply (k_back _ _ K) | exists (GLit s); now rewrite <- Hd | apply (k_np _ _ K)].
      + intros j Hj (H1 & H2 & H3). split; [exact H1 |]. rewrite M2, M3. auto.
      + split; [rewrite Hd, app_length; cbn; lia | exact N].
  Qed.

  Lemma cat_step L o names ids gs b NP b' id : counted b NP -> L <= length (data b) -> Forall2 (stands L b NP) ids gs -> gen_cat cs o names ids b = Some (b', id) ->
    step_result L b NP b' id (if existsb has_epsilon gs then 1 else 0) (GCat gs).
  Proof.
    intros K HL F E. pose proof (stands_lt _ _ _ _ _ F) as Hlt. apply gen_cat_cases in E as [[H ->] | (Hm & -> & en & n0 & p0 & D & Hd & M1 & M2 & M3 & M4)].
    - destruct (existsb has_epsilon gs) eqn:Ee.
      + destruct (stands_unused _ _ _ _ _ F Ee) as (j & Hj & _ & Hu & _). destruct (Hu _ _ H Hj).
      + exists NP. split; [exact K |]. split; [lia |]. split; [exists []; now rewrite app_nil_r |]. split; [auto |]. destruct (k_cat _ _ K _ _ H) as (n & p & D). split; [eapply def_lt, D |]. cbn [has_epsilon]. rewrite Ee.
        econstructor; [exact D |]. eapply stands_dens; eauto.
    - assert (B : backward (data b')). { rewrite Hd. apply backward_push; [apply (k_back _ _ K) | rewrite D; exact Hlt]. }
      assert (Q : forall NP', NoDup NP' -> (forall i, In i NP' <-> i < length (data b') /\ ~ clear (data b') i) -> counted b' NP').
      { intros NP' Q1 Q2. split; rewrite ?M1, ?M2, ?M3, ?M4; auto.
        - apply (k_eps _ _ K).
        - intros s k H. destruct (k_lit _ _ K s k H) as (c & D'). exists c. rewrite Hd, def_app1; [exact D' | eapply def_lt, D'].
        - intros ids' k H. cbn in H. destruct (nats_eqb ids' ids) eqn:Es; [apply nats_eqb_eq in Es; injection H as <-; subst ids'; exists n0, p0; rewrite Hd, def_last, D; reflexivity |].
          destruct (k_cat _ _ K ids' k H) as (n & p & D'). exists n, p. rewrite Hd, def_app1; [exact D' | eapply def_lt, D'].
        - intros ids' k H. destruct (k_alt _ _ K ids' k H) as (p & f & n & a & c & D'). exists p, f, n, a, c. rewrite Hd, def_app1; [exact D' | eapply def_lt, D']. }
      assert (Us : forall NP', incl NP NP' -> forall j, j < L -> unused b NP j -> unused b' NP' j).
      { intros NP' Hi j Hj (H1 & H2 & H3). split; [auto |]. rewrite M2, M3. split; [| exact H3]. intros ids' k H Hin. cbn in H. destruct (nats_eqb ids' ids) eqn:Es; [| exact (H2 _ _ H Hin)].
        apply nats_eqb_eq in Es. subst ids'. apply (proj2 (proj1 (k_np _ _ K j) H1)). exact (stands_low _ _ _ _ _ F j Hin Hj). }
      destruct (existsb has_epsilon gs) eqn:Ee.
      + destruct (stands_unused _ _ _ _ _ F Ee) as (j & Hj & Hjn & _). apply (k_np _ _ K) in Hjn as [Hjl Hjc].
        assert (N : ~ clear (data b') (length (data b))).
        { rewrite Hd. intros [g H]. inversion H as [i s c D' | i n p ids' gs' D' Hs | i p ids' f n a c gs' D']; subst; rewrite def_last, D in D'; try discriminate. injection D' as _ _ <-.
          apply Hjc. apply (clear_app _ [en]); [apply (k_back _ _ K) | exact Hjl |]. exact (dens_clear _ _ _ Hs j Hj). }
        exists (length (data b) :: NP). split; [| split; [cbn; lia | split; [exists [en]; exact Hd | split]]].
        * apply Q; [constructor; [rewrite (k_np _ _ K); lia | apply (k_nodup _ _ K)] |]. rewrite Hd in N |- *. apply np_not; [apply (k_back _ _ K) | exact N | apply (k_np _ _ K)].
        * apply Us. intros x Hx. now right.
        * split; [rewrite Hd, app_length; cbn; lia |]. cbn [has_epsilon]. rewrite Ee. split; [| exact HL]. split; [now left |]. rewrite M2, M3. split; intros ids' k H Hin.
          -- cbn in H. destruct (nats_eqb ids' ids) eqn:Es; [apply nats_eqb_eq in Es; subst ids'; apply Hlt in Hin; lia |].
             destruct (k_cat _ _ K ids' k H) as (n & p & D'). pose proof (def_lt _ _ _ D'). assert (length (data b) < k) by (apply (k_back _ _ K); unfold mentions; now rewrite D'). lia.
          -- destruct (k_alt _ _ K ids' k H) as (p & f & n & a & c & D'). pose proof (def_lt _ _ _ D'). assert (length (data b) < k) by (apply (k_back _ _ K); unfold mentions; now rewrite D'). lia.
      + assert (N : den (data b') (length (data b)) (GCat gs)).
        { rewrite Hd. econstructor; [rewrite def_last, D; reflexivity |]. apply (proj2 (den_app (data b) [en])). eapply stands_dens; eauto. }
        exists NP. split; [| split; [lia | split; [exists [en]; exact Hd | split]]].
        * apply Q; [apply (k_nodup _ _ K) |]. rewrite Hd. apply np_clear; [apply (k_back _ _ K) | rewrite <- Hd; eexists; exact N | apply (k_np _ _ K)].
        * apply Us, incl_refl.
        * split; [rewrite Hd, app_length; cbn; lia |]. cbn [has_epsilon]. rewrite Ee. exact N.
  Qed.
  Lemma alt_step L o names tys ids gs b NP b' id : counted b NP -> L <= length (data b) -> Forall2 (stands L b NP) ids gs -> gen_alt cs o names tys ids b = Some (b', id) ->
    step_result L b NP b' id (if existsb has_epsilon gs then 1 else 0) (GAlt gs).
  Proof.
    intros K HL F E. pose proof (stands_lt _ _ _ _ _ F) as Hlt. apply gen_alt_cases in E as [[H ->] | (Hm & -> & en & p0 & f0 & n0 & a0 & c0 & D & Hd & M1 & M2 & M3 & M4)].
    - destruct (existsb has_epsilon gs) eqn:Ee.
      + destruct (stands_unused _ _ _ _ _ F Ee) as (j & Hj & _ & _ & Hu). destruct (Hu _ _ H Hj).
      + exists NP. split; [exact K |]. split; [lia |]. split; [exists []; now rewrite app_nil_r |]. split; [auto |]. destruct (k_alt _ _ K _ _ H) as (p & f & n & a & c & D). split; [eapply def_lt, D |]. cbn [has_epsilon]. rewrite Ee.
        econstructor; [exact D |]. eapply stands_dens; eauto.
    - assert (B : backward (data b')). { rewrite Hd. apply backward_push; [apply (k_back _ _ K) | rewrite D; exact Hlt]. }
      assert (Q : forall NP', NoDup NP' -> (forall i, In i NP' <-> i < length (data b') /\ ~ clear (data b') i) -> counted b' NP').
      { intros NP' Q1 Q2. split; rewrite ?M1, ?M2, ?M3, ?M4; auto.
        - apply (k_eps _ _ K).
        - intros s k H. destruct (k_lit _ _ K s k H) as (c & D'). exists c. rewrite Hd, def_app1; [exact D' | eapply def_lt, D'].
        - intros ids' k H. destruct (k_cat _ _ K ids' k H) as (n & p & D'). exists n, p. rewrite Hd, def_app1; [exact D' | eapply def_lt, D'].
        - intros ids' k H. cbn in H. destruct (nats_eqb ids' ids) eqn:Es; [apply nats_eqb_eq in Es; injection H as <-; subst ids'; exists p0, f0, n0, a0, c0; rewrite Hd, def_last, D; reflexivity |].
          destruct (k_alt _ _ K ids' k H) as (p & f & n & a & c & D'). exists p, f, n, a, c. rewrite Hd, def_app1; [exact D' | eapply def_lt, D']. }
      assert (Us : forall NP', incl NP NP' -> forall j, j < L -> unused b NP j -> unused b' NP' j).
      { intros NP' Hi j Hj (H1 & H2 & H3). split; [auto |]. rewrite M2, M3. split; [exact H2 |]. intros ids' k H Hin. cbn in H. destruct (nats_eqb ids' ids) eqn:Es; [| exact (H3 _ _ H Hin)].
        apply nats_eqb_eq in Es. subst ids'. apply (proj2 (proj1 (k_np _ _ K j) H1)). exact (stands_low _ _ _ _ _ F j Hin Hj). }
      destruct (existsb has_epsilon gs) eqn:Ee.
      + destruct (stands_unused _ _ _ _ _ F Ee) as (j & Hj & Hjn & _). apply (k_np _ _ K) in Hjn as [Hjl Hjc].
        assert (N : ~ clear (data b') (length (data b))).
        { rewrite Hd. intros [g H]. inversion H as [i s c D' | i n p ids' gs' D' | i p ids' f n a c gs' D' Hs]; subst; rewrite def_last, D in D'; try discriminate. injection D' as _ <- _ _ _ _.
          apply Hjc. apply (clear_app _ [en]); [apply (k_back _ _ K) | exact Hjl |]. exact (dens_clear _ _ _ Hs j Hj). }
        exists (length (data b) :: NP). split; [| split; [cbn; lia | split; [exists [en]; exact Hd | split]]].
        * apply Q; [constructor; [rewrite (k_np _ _ K); lia | apply (k_nodup _ _ K)] |]. rewrite Hd in N |- *. apply np_not; [apply (k_back _ _ K) | exact N | apply (k_np _ _ K)].
        * apply Us. intros x Hx. now right.
        * split; [rewrite Hd, app_length; cbn; lia |]. cbn [has_epsilon]. rewrite Ee. split; [| exact HL]. split; [now left |]. rewrite M2, M3. split; intros ids' k H Hin.
          -- destruct (k_cat _ _ K ids' k H) as (n & p & D'). pose proof (def_lt _ _ _ D'). assert (length (data b) < k) by (apply (k_back _ _ K); unfold mentions; now rewrite D'). lia.
          -- cbn in H. destruct (nats_eqb ids' ids) eqn:Es; [apply nats_eqb_eq in Es; subst ids'; apply Hlt in Hin; lia |].
             destruct (k_alt _ _ K ids' k H) as (p & f & n & a & c & D'). pose proof (def_lt _ _ _ D'). assert (length (data b) < k) by (apply (k_back _ _ K); unfold mentions; now rewrite D'). lia.
      + assert (N : den (data b') (length (data b)) (GAlt gs)).
        { rewrite Hd. econstructor; [rewrite def_last, D; reflexivity |]. apply (proj2 (den_app (data b) [en])). eapply stands_dens; eauto. }
        exists NP. split; [| split; [lia | split; [exists [en]; exact Hd | split]]].
        * apply Q; [apply (k_nodup _ _ K) |]. rewrite Hd. apply np_clear; [apply (k_back _ _ K) | rewrite <- Hd; eexists; exact N | apply (k_np _ _ K)].
        * apply Us, incl_refl.
        * split; [rewrite Hd, app_length; cbn; lia |]. cbn [has_epsilon]. rewrite Ee. exact N.
  Qed.

  Definition estep (e : texpr) : Prop := finite_or_epsilon (gram_of_t e) -> forall b b' id NP, counted b NP -> gen cs e b = Some (b', id) ->
    step_result (length (data b)) b NP b' id (epsilon_parts (gram_of_t e)) (gram_of_t e).
  Lemma stands_later L b NP b' NP' i g : counted b NP -> (exists l, data b' = data b ++ l) -> (forall j, j < length (data b) -> unused b NP j -> unused b' NP' j) -> stands L b NP i g -> stands L b' NP' i g.
  Proof.
    intros K (l & E) U [H1 H2]. split; [rewrite E, app_length; lia |]. destruct (has_epsilon g); [destruct H2; split; auto |]. rewrite E. now apply (proj1 (den_app (data b) l)).
  Qed.
  Lemma list_step l : Forall estep l -> (forall e, In e l -> finite_or_epsilon (gram_of_t e)) -> forall L b b' ids NP, counted b NP -> L <= length (data b) -> gen_list (gen cs) l b = Some (b', ids) ->
    exists NP', counted b' NP' /\ length NP' = length NP + list_sum (map epsilon_parts (map gram_of_t l)) /\ (exists l', data b' = data b ++ l')
      /\ (forall j, j < length (data b) -> unused b NP j -> unused b' NP' j) /\ Forall2 (stands L b' NP') ids (map gram_of_t l).
  Proof.
    induction 1 as [| e l He _ IH]; intros P L b b' ids NP K HL E; cbn [gen_list] in E.
    - injection E as <- <-. exists NP. cbn. split; [exact K |]. split; [lia |]. split; [exists []; now rewrite app_nil_r |]. split; [auto | constructor].
    - destruct (gen cs e b) as [[b1 id]|] eqn:E1; [|discriminate]. destruct (gen_list (gen cs) l b1) as [[b2 ids2]|] eqn:E2; [|discriminate]. injection E as <- <-.
      destruct (He (P e (or_introl eq_refl)) _ _ _ _ K E1) as (NP1 & K1 & N1 & (l1 & D1) & U1 & S1).
      destruct (IH (fun x Hx => P x (or_intror Hx)) L _ _ _ _ K1 ltac:(rewrite D1, app_length; lia) E2) as (NP2 & K2 & N2 & (l2 & D2) & U2 & S2).
      exists NP2. split; [exact K2 |]. split; [cbn [map list_sum fold_right]; unfold list_sum in N2; lia |]. split; [exists (l1 ++ l2); now rewrite D2, D1, app_assoc |]. split.
      + intros j Hj Hu. apply U2; [rewrite D1, app_length; lia | now apply U1].
      + cbn [map]. constructor; [| exact S2]. eapply stands_later; [exact K1 | eauto | exact U2 |]. destruct S1 as [S0 S1]. split; [exact S0 |]. destruct (has_epsilon (gram_of_t e)); [destruct S1; split; [assumption | lia] | exact S1].
  Qed.
  Lemma expr_step e : estep e.
  Proof.
    induction e using texpr_ind'; intros P b b' id NP K E.
    - cbn [gen] in E. now apply epsilon_step.
    - cbn [gen] in E. cbn [gram_of_t epsilon_parts]. eapply literal_step; eauto.
    - rewrite gen_cat_eq in E. destruct (gen_list (gen cs) _ b) as [[b1 ids]|] eqn:El; [|discriminate].
      destruct (list_step _ H) with (L := length (data b)) (b := b) (b' := b1) (ids := ids) (NP := NP) as (NP1 & K1 & N1 & (l1 & D1) & U1 & S1); auto.
      { intros x Hx y Hy. apply P. cbn. eapply part_cat; [apply in_map, Hx | exact Hy]. }
      destruct (cat_step (length (data b)) _ _ _ _ _ _ _ _ K1 ltac:(rewrite D1, app_length; lia) S1 E) as (NP2 & K2 & N2 & (l2 & D2) & U2 & S2).
      exists NP2. split; [exact K2 |]. split; [cbn [gram_of_t epsilon_parts]; lia |]. split; [exists (l1 ++ l2); now rewrite D2, D1, app_assoc |]. split; [auto | exact S2].
    - rewrite gen_alt_eq in E. destruct (gen_list (gen cs) _ b) as [[b1 ids]|] eqn:El; [|discriminate].
      destruct (list_step _ H) with (L := length (data b)) (b := b) (b' := b1) (ids := ids) (NP := NP) as (NP1 & K1 & N1 & (l1 & D1) & U1 & S1); auto.
      { intros x Hx y Hy. apply P. cbn. eapply part_alt; [apply in_map, Hx | exact Hy]. }
      destruct (alt_step (length (data b)) _ _ _ _ _ _ _ _ _ K1 ltac:(rewrite D1, app_length; lia) S1 E) as (NP2 & K2 & N2 & (l2 & D2) & U2 & S2).
      exists NP2. split; [exact K2 |]. split; [cbn [gram_of_t epsilon_parts]; lia |]. split; [exists (l1 ++ l2); now rewrite D2, D1, app_assoc |]. split; [auto | exact S2].
    - destruct (P _ (part_self _)).
    - destruct (P _ (part_self _)).
  Qed.
End Step.

(** ** Which types are clear *)
Lemma part_has x g : part_of x g -> has_epsilon g = false -> has_epsilon x = false.
Proof.
  induction 1 as [| gs g Hi _ IH | gs g Hi _ IH | g _ IH]; cbn; auto; intros E; apply IH; (destruct (has_epsilon g) eqn:Eg; [| reflexivity]);
    (assert (existsb has_epsilon gs = true) by (apply existsb_exists; eauto)); congruence.
Qed.
Lemma part_trans x y z : part_of x y -> part_of y z -> part_of x z.
Proof. intros H. induction 1; auto; [eapply part_cat | eapply part_alt | apply part_fix]; eauto. Qed.
Lemma foe_part x g : finite_or_epsilon g -> part_of x g -> finite_or_epsilon x.
Proof. intros F H y Hy. apply F. eapply part_trans; eauto. Qed.
Lemma foe_finite g : finite_or_epsilon g -> has_epsilon g = false -> finite_gram g.
Proof. intros F E x Hx. pose proof (F x Hx). pose proof (part_has _ _ Hx E). destruct x; auto; discriminate. Qed.
Lemma den_no_epsilon tab : (forall i g, den tab i g -> has_epsilon g = false) /\ (forall is gs, dens tab is gs -> existsb has_epsilon gs = false).
Proof. apply den_mutind; cbn; auto. intros i is g gs _ H1 _ H2. now rewrite H1, H2. Qed.
Lemma foe_sharing r : finite_or_epsilon (gram_of_t r) -> sharing_ok r.
Proof.
  intros P B a i B' a' i' H _ _ n _. enough (K : part_of (gram_of_t (TFix a i)) (gram_of_t r)) by destruct (P _ K).
  revert H. generalize (TFix a i). generalize B. clear. intros B x H.
  induction H as [| B a l t x _ IH Hi | B a l t x _ IH Hi | B a i _ IH].
  - constructor.
  - eapply part_trans; [| exact IH]. cbn. eapply part_cat; [apply in_map, Hi | constructor].
  - eapply part_trans; [| exact IH]. cbn. eapply part_alt; [apply in_map, Hi | constructor].
  - eapply part_trans; [| exact IH]. cbn. apply part_fix. constructor.
Qed.
Lemma Forall2_left {A B} (R : A -> B -> Prop) l m x : Forall2 R l m -> In x l -> exists y, In y m /\ R x y.
Proof. induction 1 as [| a b l m H _ IH]; intros []; [subst; exists b; split; [now left | exact H] |]. destruct IH as (y & ? & ?); auto. exists y. split; [now right | assumption]. Qed.
Lemma Forall2_right {A B} (R : A -> B -> Prop) l m y : Forall2 R l m -> In y m -> exists x, In x l /\ R x y.
Proof. induction 1 as [| a b l m H _ IH]; intros []; [subst; exists a; split; [now left | exact H] |]. destruct IH as (x & ? & ?); auto. exists x. split; [now right | assumption]. Qed.
Lemma mentioned_repr tab i j : mentioned tab i j -> forall x, repr tab [] i x -> finite_or_epsilon (gram_of_t x) -> exists y, part_of (gram_of_t y) (gram_of_t x) /\ repr tab [] j y.
Proof.
  induction 1 as [i | i j k Hm _ IH]; intros x R P; [exists x; split; [constructor | exact R] |]. unfold mentions in Hm.
  inversion R as [ctx id a t D | ctx id a s t c D | ctx id a l t n p ids D F | ctx id a l t p ids c D F | ctx id a i0 j0 D R0 | ctx id a i0 t f D0 D]; subst; rewrite ?D in Hm.
  - destruct Hm.
  - destruct Hm.
  - destruct (Forall2_left _ _ _ _ F Hm) as (y & Hy & Ry). assert (Q : part_of (gram_of_t y) (gram_of_t (TCat a l t))) by (cbn; eapply part_cat; [apply in_map, Hy | constructor]).
    destruct (IH y Ry (foe_part _ _ P Q)) as (z & Hz & Rz). exists z. split; [eapply part_trans; eauto | exact Rz].
  - destruct (Forall2_left _ _ _ _ F Hm) as (y & Hy & Ry). assert (Q : part_of (gram_of_t y) (gram_of_t (TAlt a l t))) by (cbn; eapply part_alt; [apply in_map, Hy | constructor]).
    destruct (IH y Ry (foe_part _ _ P Q)) as (z & Hz & Rz). exists z. split; [eapply part_trans; eauto | exact Rz].
  - destruct (P _ (part_self _)).
  - destruct (P _ (part_self _)).
Qed.
Lemma part_repr tab e : forall i p, repr tab [] i e -> finite_or_epsilon (gram_of_t e) -> part_of p (gram_of_t e) -> exists j y, repr tab [] j y /\ gram_of_t y = p.
Proof.
  induction e using texpr_ind'; intros k p R P Hp; try (now destruct (P _ (part_self _))).
  - inversion Hp; subst. eauto.
  - inversion Hp; subst. eauto.
  - inversion R as [| | ctx id a' l' t' n' p' ids D F | | |]; subst. cbn in Hp. inversion Hp as [| gs g Hi Hg | |]; subst; [eauto |]. apply in_map_iff in Hi as (y & <- & Hy).
    destruct (Forall2_right _ _ _ _ F Hy) as (j & Hj & Ry). rewrite Forall_forall in H. eapply (H y Hy); eauto. eapply foe_part; [exact P |]. cbn. eapply part_cat; [apply in_map, Hy | constructor].
  - inversion R as [| | | ctx id a' l' t' p' ids c D F | |]; subst. cbn in Hp. inversion Hp as [| | gs g Hi Hg |]; subst; [eauto |]. apply in_map_iff in Hi as (y & <- & Hy).
    destruct (Forall2_right _ _ _ _ F Hy) as (j & Hj & Ry). rewrite Forall_forall in H. eapply (H y Hy); eauto. eapply foe_part; [exact P |]. cbn. eapply part_alt; [apply in_map, Hy | constructor].
Qed.
Lemma repr_den_same tab e : forall i g, repr tab [] i e -> finite_or_epsilon (gram_of_t e) -> den tab i g -> gram_of_t e = g.
Proof.
  assert (L : forall l, Forall (fun x => forall i g, repr tab [] i x -> finite_or_epsilon (gram_of_t x) -> den tab i g -> gram_of_t x = g) l ->
    forall ids gs, Forall2 (repr tab []) ids l -> (forall y, In y l -> finite_or_epsilon (gram_of_t y)) -> dens tab ids gs -> map gram_of_t l = gs).
  { induction 1 as [| x0 l Hx _ IH]; intros ids gs F P D; inversion F; subst; inversion D; subst; cbn; [reflexivity |]. f_equal.
    - eapply Hx; eauto. apply P. now left.
    - eapply IH; eauto. intros y' Hy. apply P. now right. }
  induction e using texpr_ind'; intros k g R P D; try (now destruct (P _ (part_self _))); inversion R; subst.
  - inversion D; subst; congruence.
  - inversion D; subst; cbn; congruence.
  - inversion D; subst; try congruence. cbn. f_equal. eapply (L _ H); [eassumption | | congruence]. intros y Hy. eapply foe_part; [exact P |]. cbn. eapply part_cat; [apply in_map, Hy | constructor].
  - inversion D; subst; try congruence. cbn. f_equal. eapply (L _ H); [eassumption | | congruence]. intros y Hy. eapply foe_part; [exact P |]. cbn. eapply part_alt; [apply in_map, Hy | constructor].
Qed.

Lemma filter_split {A} (f : A -> bool) l : length (filter (fun x => negb (f x)) l) + length (filter f l) = length l.
Proof. induction l as [| x l IH]; [reflexivity |]. cbn. destruct (f x); cbn; lia. Qed.
Lemma count_rest n NP : NoDup NP -> (forall i, In i NP -> i < n) -> exists l, NoDup l /\ length l + length NP = n /\ forall i, In i l <-> i < n /\ ~ In i NP.
Proof.
  intros N H. set (inb := fun i => existsb (Nat.eqb i) NP). assert (B : forall i, inb i = true <-> In i NP).
  { intros i. unfold inb. rewrite existsb_exists. split; [intros (x & Hx & E); apply Nat.eqb_eq in E; now subst | intros Hi; exists i; split; [exact Hi | apply Nat.eqb_refl]]. }
  exists (filter (fun i => negb (inb i)) (seq 0 n)). split; [apply NoDup_filter, seq_NoDup |]. split.
  - assert (E : length (filter inb (seq 0 n)) = length NP).
    { apply Nat.le_antisymm; apply NoDup_incl_length; [apply NoDup_filter, seq_NoDup | | exact N |]; intros i Hi.
      - apply filter_In in Hi as [_ Hi]. now apply B.
      - apply filter_In. split; [apply in_seq; specialize (H i Hi); lia | now apply B]. }
    rewrite <- E, filter_split. apply seq_length.
  - intros i. rewrite filter_In, in_seq, negb_true_iff. split.
    + intros [Hi Hb]. split; [lia |]. intros Hn. apply B in Hn. congruence.
    + intros [Hi Hb]. split; [lia |]. destruct (inb i) eqn:Ei; [| reflexivity]. apply B in Ei. contradiction.
Qed.

Theorem count_types_epsilon cs e r tab root g D : compiles cs e r tab root -> gram_of e = Some g -> finite_or_epsilon g -> different_plain_parts g D ->
  length tab = length D + epsilon_parts g.
Proof.
  intros [E (b & Hg & ->)] Hgr P [ND HD]. destruct (typecheck_typed e r E) as (g' & s & Hg' & Hr & _). rewrite Hgr in Hg'. injection Hg' as <-. rewrite <- Hr in *.
  pose proof (proj1 (generate_distinct cs r b root Hg)) as U. destruct (C31_emitted cs e r b root E Hg) as (order & nm & _ & _ & _ & H1 & H2).
  pose proof (gen_total _ _ _ _ Hg) as Ht. fold (generate (total cs) r) in Ht. apply (generate_repr (total cs) r (foe_sharing r P)) in Ht; [| apply (typecheck_wt _ _ E) | apply total_names].
  destruct (expr_step cs r P _ _ _ _ counted_default Hg) as (NP & K & N & _ & _ & _). cbn [length Nat.add] in N. set (T := data b) in *.
  destruct (count_rest (length T) NP (k_nodup _ _ K)) as (l & Nl & El & Hl); [intros i Hi; now apply (k_np _ _ K) in Hi |].
  enough (length l = length D) by lia.
  assert (C : forall i, i < length T -> ~ In i NP -> exists x, In x D /\ den T i x).
  { intros i Hi Hn. destruct (mentioned_repr T root i (proj1 (H1 i) (proj2 (H2 i) Hi)) r Ht P) as (y & Hp & Ry). exists (gram_of_t y).
    assert (Hc : ~ ~ clear T i) by (intros Hc; apply Hn, (k_np _ _ K); auto).
    assert (Ey : has_epsilon (gram_of_t y) = false).
    { destruct (has_epsilon (gram_of_t y)) eqn:Ey; [exfalso | reflexivity]. apply Hc. intros [x Hx]. rewrite (repr_den_same T y i x Ry (foe_part _ _ P Hp) Hx), (proj1 (den_no_epsilon T) i x Hx) in Ey. discriminate. }
    split; [apply HD; auto |]. eapply repr_den; [exact Ry |]. apply foe_finite; [eapply foe_part; eauto | exact Ey]. }
  apply Nat.le_antisymm.
  - apply (matched (den T)); [exact Nl | exact ND | |].
    + intros i Hi. apply Hl in Hi as [Hi Hn]. auto.
    + intros i j x Hi Hj. exact (proj1 (den_inj T U) i x Hi j Hj).
  - apply (matched (fun x i => den T i x)); [exact ND | exact Nl | |].
    + intros x Hx. apply HD in Hx as [Hp Hx]. destruct (part_repr T r root x Ht P Hp) as (j & y & Ry & <-). exists j.
      assert (Dj : den T j (gram_of_t y)) by (eapply repr_den; [exact Ry | apply foe_finite; [eapply foe_part; eauto | exact Hx]]).
      split; [| exact Dj]. apply Hl. split; [eapply den_lt; eauto |]. intros Hn. apply (k_np _ _ K) in Hn as [_ Hn]. apply Hn. now exists (gram_of_t y).
    + intros x y i Hx Hy. exact (proj1 (den_fun T) i x Hx y Hy).
Qed.
