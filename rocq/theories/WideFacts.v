(** * WideFacts: the alternations and sequences of a program have two parts or more. *)
From Verif Require Export ExpectFacts OriginFacts DistinctFacts.
From Coq Require Import List NArith Lia.
Open Scope list_scope.

(** In the typed expression. *)
Inductive broad : texpr -> Prop :=
| w_eps a t : broad (TEps a t)
| w_lit a s t : broad (TLit a s t)
| w_var a i t : broad (TVar a i t)
| w_cat a l t : 2 <= length l -> Forall broad l -> broad (TCat a l t)
| w_alt a l t : 2 <= length l -> Forall broad l -> broad (TAlt a l t)
| w_fix a e : broad e -> broad (TFix a e).
Lemma marked_broad A B C N e : marked A B C N e -> forall nm r, keeps nm e r -> broad r.
Proof.
  assert (L : forall (D : span -> Prop) r r', Forall (fun x : span * nexpr => marked A B C N (snd x) -> forall nm t, keeps nm (snd x) t -> broad t) r ->
    Forall (fun x => D (fst x) /\ marked A B C N (snd x)) r -> Forall2 (fun x t => keeps (e_name (snd x)) (snd x) t) r r' -> length r' = length r /\ Forall broad r').
  { intros D r r' H M K. induction K as [| x t r r' Hx K IH]; [split; constructor |]. apply Forall_cons_iff in H as [H1 H2]. apply Forall_cons_iff in M as [[_ M1] M2].
    destruct (IH H2 M2) as [I1 I2]. split; [cbn; lia |]. constructor; [eapply H1; eauto | exact I2]. }
  assert (Z : forall r : list (span * nexpr), r <> [] -> 1 <= length r) by (intros [|]; [congruence | cbn; lia]).
  induction e using nexpr_ind_fix; intros M nm r' K; try (inversion K; subst; constructor; fail).
  - inversion K as [| | | ? ? ? ? f' r1 ty K1 K2 | |]; subst. inversion M as [| | ? ? ? M1 M2 M3 M4 | | | | | |]; subst. destruct (L _ _ _ H M3 K2) as [L1 L2]. pose proof (Z _ M4). constructor; [cbn; lia |]. constructor; [eapply IHe; eauto | exact L2].
  - inversion K as [| | | | ? ? ? ? f' r1 ty K1 K2 |]; subst. inversion M as [| | | ? ? ? M1 M2 M3 M4 | | | | |]; subst. destruct (L _ _ _ H M3 K2) as [L1 L2]. pose proof (Z _ M4). constructor; [cbn; lia |]. constructor; [eapply IHe; eauto | exact L2].
  - inversion K as [| | | | | ? ? ? ? ? b' K1]; subst. inversion M as [| | | | ? ? M1 M2 | | | |]; subst. inversion M2 as [| | | | | | | ? ? ? M3 M4 M5 |]; subst. constructor. eapply IHe; eauto.
  - inversion K; subst. exfalso. eapply H; reflexivity.
Qed.

(** In the table. *)
Definition broad_def (d : def) : Prop := match d with DCat _ _ ids | DAlt _ ids _ _ _ _ => 2 <= length ids | _ => True end.
Section Broad.
  Variable cs : casing.
  Definition broads (d : list entry) : Prop := Forall (fun en => broad_def (en_def en)) d.
  Lemma broads_push d en : broads d -> broad_def (en_def en) -> broads (d ++ [en]).
  Proof. intros H H1. apply Forall_app. split; [exact H |]. constructor; auto. Qed.
  Definition bspec (e : texpr) : Prop := forall b b' id, broad e -> broads (data b) -> gen cs e b = Some (b', id) -> broads (data b').
  Lemma gen_list_broad l : Forall bspec l -> forall b b' ids, Forall broad l -> broads (data b) -> gen_list (gen cs) l b = Some (b', ids) -> broads (data b').
  Proof.
    induction 1 as [|e l He Hl IH]; intros b b' ids Hn I E; cbn [gen_list] in E.
    - injection E as <- <-. exact I.
    - inversion Hn; subst. destruct (gen cs e b) as [[b1 id]|] eqn:E1; [|discriminate].
      destruct (gen_list (gen cs) l b1) as [[b2 ids2]|] eqn:E2; [|discriminate]. injection E as <- <-. eapply IH; [| | exact E2]; eauto.
  Qed.
  Theorem gen_broad e : bspec e.
  Proof.
    induction e using texpr_ind'; intros b b' id Hw I E; inversion Hw; subst.
    - cbn in E. unfold gen_epsilon in E. destruct (eps_id b); injection E as <- <-; [exact I|]. apply broads_push; [exact I|exact Logic.I].
    - cbn in E. unfold gen_literal in E. destruct (map_get rstr_eqb s (lit_map b)); [injection E as <- <-; exact I|].
      destruct (new_type_name _ _ _ _) as [[[x ident] b1]|] eqn:En; [|discriminate]. apply new_type_name_inv in En as (-> & nm & ->).
      destruct s as [|c [|c' s]]; injection E as <- <-; (apply broads_push; [exact I|exact Logic.I]).
    - rewrite gen_cat_eq in E. destruct (gen_list (gen cs) _ b) as [[b1 ids]|] eqn:El; [|discriminate].
      match goal with K : Forall broad _ |- _ => pose proof (gen_list_broad _ H _ _ _ K I El) as I1 end. apply gen_list_length in El.
      unfold gen_cat in E. destruct (map_get nats_eqb ids (cat_map b1)); [injection E as <- <-; exact I1|].
      destruct (new_type_name _ _ _ _) as [[[x ident] b2]|] eqn:En; [|discriminate]. apply new_type_name_inv in En as (-> & nm & ->). destruct (ids_ok _ _); [|discriminate].
      destruct (name_parts _ _ _ _ _) as [parts|] eqn:Ep; [|discriminate]. injection E as <- <-. apply broads_push; [exact I1|]. cbn. lia.
    - rewrite gen_alt_eq in E. destruct (gen_list (gen cs) _ b) as [[b1 ids]|] eqn:El; [|discriminate].
      match goal with K : Forall broad _ |- _ => pose proof (gen_list_broad _ H _ _ _ K I El) as I1 end. apply gen_list_length in El.
      unfold gen_alt in E. destruct (map_get nats_eqb ids (alt_map b1)); [injection E as <- <-; exact I1|].
      destruct (new_type_name _ _ _ _) as [[[x ident] b2]|] eqn:En; [|discriminate]. apply new_type_name_inv in En as (-> & nm & ->). destruct (ids_ok _ _); [|discriminate].
      destruct (name_parts _ _ _ _ _) as [parts|] eqn:Ep; [|discriminate]. injection E as <- <-.
      destruct (forallb _ ids); (apply broads_push; [exact I1|]; cbn; lia).
    - cbn [gen] in E. destruct (map_get texpr_eqb e (fix_map b)); [injection E as <- <-; exact I|].
      destruct (new_type_name _ _ _ _) as [[[x ident] b2]|] eqn:En; [|discriminate]. apply new_type_name_inv in En as (-> & nm & ->). cbv zeta in E.
      destruct (gen cs e _) as [[b4 j]|] eqn:E4; [|discriminate].
      assert (I4 : broads (data b4)) by (eapply IHe; [assumption | | exact E4]; apply broads_push; [exact I | exact Logic.I]).
      cbn [data set_context] in E. destruct (nth_error (data b4) j); [|discriminate]. destruct (Nat.ltb _ _); [|discriminate].
      injection E as <- <-. apply Forall_forall. intros en Hin. apply In_nth_error in Hin as [i Hi]. cbn in Hi. rewrite update_nth in Hi. unfold broads in I4. rewrite Forall_forall in I4.
      destruct (Nat.eqb i (List.length (data b))); [| apply I4; eapply nth_error_In; exact Hi].
      destruct (nth_error (data b4) i) as [en' |] eqn:Ei; [| discriminate]. injection Hi as <-. exact Logic.I.
    - cbn [gen] in E. unfold gen_variable in E. destruct (nth_error (context b) i) as [f|]; [|discriminate].
      destruct (map_get Nat.eqb f (var_map b)); [injection E as <- <-; exact I|].
      destruct (nth_error (data b) f); [|discriminate]. injection E as <- <-. apply broads_push; [exact I|exact Logic.I].
  Qed.
End Broad.

(** The characters an error lists: one or more for every branch. *)
Section Several.
  Variable tab : table.
  Variable tau : nat -> ty.
  Hypothesis Hok : forall id, id < length tab -> flat_ok tab tau id.
  Hypothesis Hleft : left_wf tab.
  Hypothesis Hbroad : forall id p ids fs nl al cv, def_of tab id = Some (DAlt p ids fs nl al cv) -> 2 <= length ids.

  Definition several (x : take_error) : Prop := match x with BadBranch _ c l => 2 <= length l | _ => True end.
  Lemma consume_several s st x st' : consume_str s st = (Err x, st') -> several x.
  Proof.
    unfold consume_str. generalize s at 2. generalize 0. intros k cs. revert k st. induction cs as [| e cs IH]; intros k st E; cbn [consume_loop] in E; [discriminate E |].
    destruct (iw_peek st) as [[c |] st1]; [destruct (c =? e)%N; [eauto | destruct (byte_prefix s k); [| discriminate E]] |]; now injection E as <- _.
  Qed.
  Lemma take_seq_several f ids : (forall id st x st', In id ids -> f id st = (Err x, st') -> several x) -> forall st x st', take_seq f ids st = (Err x, st') -> several x.
  Proof.
    induction ids as [| i ids IH]; intros H st x st' E; cbn [take_seq] in E; [discriminate E |].
    destruct (f i st) as [[v | y | |] st1] eqn:E1; try discriminate E.
    - destruct (take_seq f ids st1) as [[vs | y | |] st2] eqn:E2; cbn in E; try discriminate E. injection E as -> ->. eapply IH; [| exact E2]. intros i' st3 y' st4 Hi E'; apply (H i' st3 y' st4); [now right | exact E'].
    - injection E as -> ->. eapply (H i); [now left | exact E1].
  Qed.
  Theorem take_several fuel : forall id st x st', id < length tab -> take tab fuel id st = (Err x, st') -> several x.
  Proof.
    induction fuel as [| n IH]; intros id st x st' Hid E; cbn [take] in E; [discriminate |].
    pose proof (Hok id Hid) as F. unfold flat_ok in F. destruct (def_of tab id) as [[|s c|nm p ids|p ids fs nl al c|[j|]|f]|] eqn:Ed; try discriminate.
    - destruct (consume_str s st) as [[[] | y | |] st1] eqn:E1; try discriminate. cbn in E. injection E as -> ->. now apply consume_several in E1.
    - destruct F as [_ Hlt]. destruct (take_seq (take tab n) ids st) as [[ts | y | |] st1] eqn:E1; try discriminate. cbn in E. injection E as -> ->.
      eapply take_seq_several; [| exact E1]. intros i st2 y st3 Hi. apply IH. rewrite Forall_forall in Hlt. now apply Hlt.
    - pose proof (Hbroad _ _ _ _ _ _ _ Ed) as H2. destruct F as (Ha & Hlt & -> & -> & ->).
      pose proof (find_nullable_spec tau ids 0) as Hnull. rewrite Forall_forall in Hlt.
      destruct (iw_peek st) as [q st1].
      assert (Hbr : forall k, take_branch (take tab n) ids k st1 = (Err x, st') -> several x).
      { intros k Eb. unfold take_branch in Eb. destruct (nth_error ids k) as [j|] eqn:Ek; [|discriminate]. destruct (take tab n j st1) as [[t | y | |] st2] eqn:E1; try discriminate. cbn in Eb. injection Eb as -> ->.
        eapply IH; [| exact E1]. apply Hlt. now apply nth_error_In in Ek. }
      assert (Hlen : find_nullable 0 (map tau ids) = None -> length ids <= length (flat_map (fun j => first_set (tau j)) ids)).
      { intros En. rewrite En in Hnull. clear - Hnull Hlt Hok Hleft. induction ids as [| i ids IH]; [cbn; lia |]. change (flat_map (fun j => first_set (tau j)) (i :: ids)) with (first_set (tau i) ++ flat_map (fun j => first_set (tau j)) ids). rewrite app_length. cbn [length].
        assert (1 <= length (first_set (tau i))).
        { destruct (first_some tab tau Hok Hleft i (Hlt i (or_introl eq_refl))) as [K | K]; [rewrite (Hnull i (or_introl eq_refl)) in K; discriminate | destruct (first_set (tau i)); [congruence | cbn; lia]]. }
        assert (length ids <= length (flat_map (fun j => first_set (tau j)) ids)) by (apply IH; [intros j Hj; apply Hlt; now right | intros j Hj; apply Hnull; now right]). lia. }
      destruct q as [ch |].
      + destruct (pick_arm ch _) as [k |]; [eauto |]. destruct (find_nullable 0 _) as [k |]; [eauto |]. injection E as <- <-. cbn [several]. eapply Nat.le_trans; [exact H2 | exact (Hlen eq_refl)].
      + destruct (find_nullable 0 _) as [k |]; [eauto |]. injection E as <- _. exact Logic.I.
    - destruct F as [_ Hj]. eauto.
    - destruct F as [_ Hf]. destruct (take tab n f st) as [[t | y | |] st1] eqn:E1; try discriminate. cbn in E. injection E as -> ->. eauto.
  Qed.
End Several.
