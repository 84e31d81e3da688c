(** * ViableFacts: what generated parsers consume before an error is the start of a word. *)
From Verif Require Export SpecViable LeftFacts ShareFacts ExactFacts.
From Verif Require GenTrees.
From Coq Require Import List Lia.

Lemma says_embed (W W' : rstr -> Prop) a b u rest x : (forall w, W w -> W' (a ++ w ++ b)) -> says W u rest x -> says W' (a ++ u) rest x.
Proof.
  intros H. destruct x as [p c exp | p got s | p]; cbn.
  - intros (H1 & H2 & H3 & H4). repeat (split; [assumption |]). intros d Hd. destruct (H4 d Hd) as [z Hz]. exists (z ++ b). apply H in Hz. now rewrite <- !app_assoc in *.
  - intros (q & v & d & s' & c & r & out & -> & -> & -> & Hc & -> & Ho & z & Hz). exists (a ++ q), v, d, s', c, r, out. rewrite <- app_assoc. repeat (split; [first [reflexivity | assumption] |]).
    exists (z ++ b). apply H in Hz. now rewrite <- !app_assoc in *.
  - intros (-> & z & Hz & Hw). split; [reflexivity |]. exists (z ++ b). split; [destruct z; [now elim Hz | discriminate] |]. apply H in Hw. now rewrite <- !app_assoc in *.
Qed.
(** What was consumed is the start of a word. *)
Lemma says_viable W u rest x : says W u rest x -> exists z, W (u ++ z).
Proof.
  destruct x as [p c exp | p got s | p]; cbn.
  - intros (_ & _ & H3 & H4). destruct exp as [| d exp]; [now elim H3 |]. destruct (H4 d (or_introl eq_refl)) as [z Hz]. eauto.
  - intros (q & v & d & s' & c & r & out & -> & -> & -> & Hc & -> & Ho & z & Hz). exists ((d :: s') ++ z). now rewrite <- !app_assoc in *.
  - intros (_ & z & _ & Hz). eauto.
Qed.

Section Viable.
  Variable tab : table.
  Variable tau : nat -> ty.
  Hypothesis Hok : forall id, id < length tab -> flat_ok tab tau id.
  Hypothesis Hleft : left_wf tab.
  Hypothesis Hinh : forall id, id < length tab -> exists t, derives tab id t.

  Lemma seq_inhabited ids : Forall (fun j => j < length tab) ids -> exists ts, derives_seq tab ids ts.
  Proof. induction 1 as [| j ids Hj _ (ts & IH)]; [exists []; constructor |]. destruct (Hinh j Hj) as [t Ht]. exists (t :: ts). now constructor. Qed.

  (** First sets are exact. *)
  Lemma first_real id : id < length tab -> forall c, In c (first_set (tau id)) -> exists t z, derives tab id t /\ yield t = c :: z.
  Proof.
    induction (Hleft id) as [id _ IH]. intros Hid c Hc. pose proof (Hok id Hid) as F. unfold flat_ok in F. unfold lefts in IH.
    destruct (def_of tab id) as [[|s cv|nm p ids|p ids fs nl al cv|[j|]|f]|] eqn:Ed; try contradiction.
    - rewrite F in Hc. destruct Hc.
    - rewrite F in Hc. cbn in Hc. destruct s as [| d s]; cbn in Hc; [contradiction |]. destruct Hc as [-> | []]. exists (NLit (c :: s)), s. split; [eapply derives_lit; eauto | reflexivity].
    - destruct F as [F Hlt]. destruct ids as [| x xs]; [contradiction |]. destruct F as [Hn Hs]. apply Forall_cons_iff in Hlt as [Hx Hxs].
      destruct (IH x (or_introl eq_refl) Hx c) as (t & z & Ht & Hz).
      { clear -Hn Hs Hc. revert Hc. enough (K : forall t, seq_ok tau t xs (tau id) -> nullable t = false -> In c (first_set (tau id)) -> In c (first_set t)) by eauto.
        clear Hs Hn. intros t H. induction H as [t | t y ys t' Hd Hs IH]; [auto |]. intros Hn Hc. apply IH in Hc; cbn in *; rewrite Hn in *; auto. }
      destruct (seq_inhabited xs Hxs) as [ts Hts]. exists (NCat (t :: ts)), (z ++ flat_map yield ts). split; [eapply derives_cat; [exact Ed | now constructor] |]. cbn. now rewrite Hz.
    - destruct F as (F & Hlt & _). destruct ids as [| x xs]; [contradiction |].
      assert (K : exists k j, nth_error (x :: xs) k = Some j /\ In c (first_set (tau j))).
      { revert F Hc. clear. intros H. enough (K : forall t, alt_ok tau t xs (tau id) -> In c (first_set (tau id)) -> In c (first_set t) \/ exists k j, nth_error xs k = Some j /\ In c (first_set (tau j))).
        { intros Hc. destruct (K _ H Hc) as [K1 | (k & j & K1 & K2)]; [exists 0, x; auto | exists (S k), j; auto]. }
        clear H. intros t H. induction H as [t | t y ys t' Hn Hd Hs IH]; [auto |]. intros Hc. destruct (IH Hc) as [K | (k & j & K1 & K2)]; [| right; exists (S k), j; auto].
        cbn in K. apply cset_union_In in K as [K | K]; [auto | right; exists 0, y; auto]. }
      destruct K as (k & j & Hk & Hj). destruct (IH j (nth_error_In _ _ Hk)) with (c := c) as (t & z & Ht & Hz); [rewrite Forall_forall in Hlt; apply Hlt; now apply nth_error_In in Hk | exact Hj |].
      exists (NAlt k t), z. split; [eapply derives_alt; eauto | exact Hz].
    - destruct F as [F Hj]. rewrite F in Hc. destruct (IH j (or_introl eq_refl) Hj c Hc) as (t & z & Ht & Hz). exists t, z. split; [eapply derives_fix; eauto | exact Hz].
    - destruct F as [F Hf]. rewrite F in Hc. destruct (IH f (or_introl eq_refl) Hf c Hc) as (t & z & Ht & Hz). exists (NBox t), z. split; [eapply derives_box; eauto | exact Hz].
  Qed.

  Definition words (id : nat) (w : rstr) : Prop := exists t, derives tab id t /\ yield t = w.
  Definition words_seq (ids : list nat) (w : rstr) : Prop := exists ts, derives_seq tab ids ts /\ flat_map yield ts = w.
  Definition honest (W : rstr -> Prop) (w : rstr) (x : take_error) (st' : iw) : Prop :=
    exists p rest, w = p ++ rest /\ remaining st' = rest /\ says W p rest x.
  Lemma honest_embed (W W' : rstr -> Prop) a b w x st' : (forall w, W w -> W' (a ++ w ++ b)) -> honest W w x st' -> honest W' (a ++ w) x st'.
  Proof. intros H (p & rest & -> & Hr & Hs). exists (a ++ p), rest. rewrite app_assoc. split; [reflexivity |]. split; [exact Hr |]. eapply says_embed; eauto. Qed.

  Lemma consume_honest s u w st x st' : at_cursor u w st -> consume_str s st = (Err x, st') -> honest (fun v => v = s) w x st'.
  Proof.
    intros Hc E. destruct (consume_loop_spec s s 0 u w st Hc) as (r' & Hr & Hx). cbv zeta in Hr, Hx. unfold consume_str in E. rewrite E in Hx. destruct Hx as [[Hx1 _] Hx2].
    assert (Hs : exists s', s = lcp s w ++ s') by (exists (skipn (length (lcp s w)) s); rewrite (lcp_prefix s w) at 1; symmetry; apply firstn_skipn).
    destruct Hs as [s' Hs]. exists (lcp s w), r'. split; [exact Hr |]. split; [exact Hx1 |].
    destruct (Nat.eqb_spec (length (lcp s w)) (length s)) as [El | El]; [destruct r'; discriminate Hx2 |].
    destruct s' as [| d s']; [rewrite app_nil_r in Hs; elim El; now rewrite <- Hs |].
    destruct r' as [| c r'].
    - injection Hx2 as ->. cbn. split; [reflexivity |]. exists (d :: s'). split; [discriminate | now symmetry].
    - cbn [plus] in Hx2. destruct (byte_prefix s _) as [out |] eqn:Eb; [| discriminate]. injection Hx2 as ->. cbn.
      exists [], (lcp s w), d, s', c, r', out. split; [exact Hs |]. split; [reflexivity |]. split; [reflexivity |]. split; [| split; [reflexivity | split; [| exists []; apply app_nil_r]]].
      + intros ->. assert (K : lcp s w = lcp s w ++ d :: lcp s' r').
        { rewrite Hr at 1. rewrite Hs at 1. clear. induction (lcp s w) as [| y l IH]; cbn; [now rewrite N.eqb_refl |]. rewrite N.eqb_refl. now rewrite IH. }
        apply (f_equal (@length _)) in K. rewrite app_length in K. cbn in K. lia.
      + intros Ha. rewrite byte_prefix_ascii in Eb; [| rewrite (lcp_prefix s w), firstn_length; lia | rewrite <- lcp_prefix; exact Ha]. rewrite <- lcp_prefix in Eb. now injection Eb as <-.
  Qed.

  Lemma take_seq_honest f ids : (forall id, In id ids -> sound_at tab f id) ->
    (forall id, In id ids -> forall u w st x st', at_cursor u w st -> f id st = (Err x, st') -> honest (words id) w x st') ->
    Forall (fun j => j < length tab) ids ->
    forall u w st x st', at_cursor u w st -> take_seq f ids st = (Err x, st') -> honest (words_seq ids) w x st'.
  Proof.
    intros Hs Hh Hlt. induction ids as [| id ids IH]; intros u w st x st' Hc E; cbn [take_seq] in E; [discriminate |].
    apply Forall_cons_iff in Hlt as [Hid Hids].
    pose proof (Hs id (or_introl eq_refl) u w st Hc) as S1. destruct (f id st) as [[t | y | |] st1] eqn:E1; try discriminate.
    - destruct S1 as (v & r & -> & Hc1 & _ & Hv). destruct (Hv t eq_refl) as [Hd ->].
      destruct (take_seq f ids st1) as [[ts | y | |] st2] eqn:E2; try discriminate. cbn in E. injection E as -> ->.
      assert (K : honest (words_seq ids) r x st') by (eapply (IH (fun i Hi => Hs i (or_intror Hi)) (fun i Hi => Hh i (or_intror Hi)) Hids); eauto).
      revert K. apply honest_embed with (b := []). intros w (ts & Hts & <-). rewrite app_nil_r. exists (t :: ts). split; [now constructor | reflexivity].
    - injection E as -> ->. destruct (seq_inhabited ids Hids) as [ts Hts].
      assert (K : honest (words id) w x st') by (eapply (Hh id (or_introl eq_refl)); eauto).
      revert K. apply (honest_embed _ _ [] (flat_map yield ts)). intros w' (t & Ht & <-). exists (t :: ts). split; [now constructor | reflexivity].
  Qed.

  Theorem take_honest fuel : forall id u w st x st', id < length tab -> at_cursor u w st -> take tab fuel id st = (Err x, st') -> honest (words id) w x st'.
  Proof.
    induction fuel as [|n IH]; intros id u w st x st' Hid Hc E; cbn [take] in E; [discriminate |].
    pose proof (Hok id Hid) as F. unfold flat_ok in F. destruct (def_of tab id) as [[|s c|nm p ids|p ids fs nl al c|[j|]|f]|] eqn:Ed; try discriminate.
    - destruct (consume_str s st) as [[[] | y | |] st1] eqn:E1; try discriminate. cbn in E. injection E as -> ->.
      pose proof (consume_honest _ _ _ _ _ _ Hc E1) as K. revert K. apply (honest_embed _ _ [] []). intros v ->. exists (NLit s). rewrite app_nil_r. split; [eapply derives_lit; eauto | reflexivity].
    - destruct F as [_ Hlt]. destruct (take_seq (take tab n) ids st) as [[ts | y | |] st1] eqn:E1; try discriminate. cbn in E. injection E as -> ->.
      assert (K : honest (words_seq ids) w x st').
      { eapply take_seq_honest; eauto; [intros; apply take_sound |]. intros i Hi. intros. eapply IH; eauto. rewrite Forall_forall in Hlt. now apply Hlt. }
      revert K. apply (honest_embed _ _ [] []). intros v (ts & Hts & <-). rewrite app_nil_r. exists (NCat ts). split; [eapply derives_cat; eauto | reflexivity].
    - destruct F as (Ha & Hlt & -> & -> & ->). destruct ids as [| i0 is]; [contradiction |].
      pose proof (alts_pair tau i0 is _ Ha) as Hpair.
      assert (Hpick : forall c0, match pick_arm c0 (first_arms 0 (map tau (i0 :: is))) with Some k => exists k0 j, k = 0 + k0 /\ nth_error (i0 :: is) k0 = Some j /\ In c0 (first_set (tau j)) | None => forall j, In j (i0 :: is) -> ~ In c0 (first_set (tau j)) end).
      { intros c0. apply pick_arm_spec. intros k k' j j' H1 H2 H3. apply (Hpair k k' j j' H1 H2 H3). }
      pose proof (find_nullable_spec tau (i0 :: is) 0) as Hnull.
      set (ids := i0 :: is) in *. clearbody ids.
      destruct (peek_at _ _ _ Hc) as [P1 P2]. destruct (iw_peek st) as [q st1]. cbn in P1, P2. subst q.
      assert (Hbr : forall k, take_branch (take tab n) ids k st1 = (Err x, st') -> honest (words id) w x st').
      { intros k Eb. unfold take_branch in Eb. destruct (nth_error ids k) as [j|] eqn:Ek; [|discriminate]. destruct (take tab n j st1) as [[t | y | |] st2] eqn:E1; try discriminate. cbn in Eb. injection Eb as -> ->.
        assert (K : honest (words j) w x st') by (eapply IH; eauto; rewrite Forall_forall in Hlt; apply Hlt; now apply nth_error_In in Ek).
        revert K. apply (honest_embed _ _ [] []). intros v (t & Ht & <-). rewrite app_nil_r. exists (NAlt k t). split; [eapply derives_alt; eauto | reflexivity]. }
      assert (Hall : forall d, In d (flat_map (fun j => first_set (tau j)) ids) -> exists z, words id (d :: z)).
      { intros d Hd. apply in_flat_map in Hd as (j & Hj & Hd). rewrite Forall_forall in Hlt. destruct (first_real j (Hlt j Hj) d Hd) as (t & z & Ht & Hz). apply In_nth_error in Hj as [k Hk].
        exists z, (NAlt k t). split; [eapply derives_alt; eauto | exact Hz]. }
      destruct w as [| ch w]; cbn [hd_error] in E.
      + destruct (find_nullable 0 (map tau ids)) as [k |]; [eauto |]. injection E as <- <-. exists [], []. split; [reflexivity |]. split; [exact (proj1 P2) |]. split; [reflexivity |].
        destruct (Hinh id Hid) as [t Ht]. exists (yield t). split; [| exists t; auto]. intros Hy. apply GenTrees.derives_inv in Ht. rewrite Ed in Ht. destruct Ht as (k & j & t' & -> & Hk & Ht).
        apply (proj1 (derives_starts tab tau Hok)) in Ht. cbn in Hy. rewrite Hy in Ht. cbn in Ht. rewrite (Hnull j (nth_error_In _ _ Hk)) in Ht. discriminate.
      + specialize (Hpick ch). destruct (pick_arm ch _) as [k |]; [eauto |]. destruct (find_nullable 0 (map tau ids)) as [k |]; [eauto |]. injection E as <- <-.
        exists [], (ch :: w). split; [reflexivity |]. split; [exact (proj1 P2) |]. split; [eauto |]. split; [| split; [| exact Hall]].
        * intros Hin. apply in_flat_map in Hin as (j & Hj & Hd). exact (Hpick j Hj Hd).
        * destruct (Hinh id Hid) as [t Ht]. apply GenTrees.derives_inv in Ht. rewrite Ed in Ht. destruct Ht as (k & j & t' & -> & Hk & Ht). apply nth_error_In in Hk.
          apply (proj1 (derives_starts tab tau Hok)) in Ht. destruct (yield t') as [| d z]; cbn in Ht; [rewrite (Hnull j Hk) in Ht; discriminate |].
          intros K. assert (K' : In d (flat_map (fun j => first_set (tau j)) ids)) by (apply in_flat_map; eauto). rewrite K in K'. destruct K'.
    - destruct F as [_ Hj]. assert (K : honest (words j) w x st') by (eapply IH; eauto). revert K. apply (honest_embed _ _ [] []). intros v (t & Ht & <-). rewrite app_nil_r. exists t. split; [eapply derives_fix; eauto | reflexivity].
    - destruct F as [_ Hf]. destruct (take tab n f st) as [[t | y | |] st1] eqn:E1; try discriminate. cbn in E. injection E as -> ->.
      assert (K : honest (words f) w x st') by (eapply IH; eauto). revert K. apply (honest_embed _ _ [] []). intros v (t & Ht & <-). rewrite app_nil_r. exists (NBox t). split; [eapply derives_box; eauto | reflexivity].
  Qed.
End Viable.

Lemma productive_mono g : forall E F, lenv_le E F -> productive E g -> productive F g.
Proof.
  assert (Many : forall E F gs, Forall (fun g => forall E F, lenv_le E F -> productive E g -> productive F g) gs -> lenv_le E F -> productives E gs -> productives F gs).
  { intros E F gs H HE. induction H as [| h hs Hg _ IH]; cbn; [auto |]. intros [H1 H2]. eauto. }
  assert (W : forall E F g, lenv_le E F -> (exists w, lang_of E g w) -> exists w, lang_of F g w) by (intros E F h HE [w Hw]; exists w; eapply lang_of_mono; eauto).
  revert g. apply (gram_ind' (fun g => forall E F, lenv_le E F -> productive E g -> productive F g)); [| intros s | intros gs H | intros gs H | intros g IHg | intros i]; intros E F HE Hp.
  - split; [exists []; reflexivity | exact Logic.I].
  - split; [exists s; reflexivity | exact Logic.I].
  - apply productive_cat in Hp as [H1 H2]. apply productive_cat. eauto.
  - apply productive_alt in Hp as [H1 H2]. apply productive_alt. eauto.
  - destruct Hp as [H1 H2]. split; [eauto |]. eapply IHg; [| exact H2]. apply lenv_le_cons; [| exact HE]. now apply (lang_of_mono (GFix g)).
  - destruct Hp as [H1 _]. split; [eauto | exact Logic.I].
Qed.

(** ** Tables of productive grammars have no empty type *)
Lemma repr_inhabited tab e : forall ctx id env, repr tab ctx id e -> env_derives tab ctx env -> productive (map yields env) (gram_of_t e) ->
  exists V, In id V /\ (forall x, In x V -> exists t, derives tab x t) /\ (forall x, In x V -> forall y, In y (mentions tab x) -> In y V \/ In y ctx).
Proof.
  assert (One : forall ctx id env e, repr tab ctx id e -> env_derives tab ctx env -> productive (map yields env) (gram_of_t e) -> exists t, derives tab id t).
  { intros ctx id env e' Hr He Hp. apply productive_word in Hp as [w Hw]. apply lang_trees in Hw as (t & Ht & _). exists t. now apply (repr_trees tab e' ctx id env Hr He). }
  assert (Many : forall ctx env l ids, env_derives tab ctx env -> Forall2 (repr tab ctx) ids l -> productives (map yields env) (map gram_of_t l) ->
    Forall (fun e => forall ctx id env, repr tab ctx id e -> env_derives tab ctx env -> productive (map yields env) (gram_of_t e) ->
      exists V, In id V /\ (forall x, In x V -> exists t, derives tab x t) /\ (forall x, In x V -> forall y, In y (mentions tab x) -> In y V \/ In y ctx)) l ->
    exists V, incl ids V /\ (forall x, In x V -> exists t, derives tab x t) /\ (forall x, In x V -> forall y, In y (mentions tab x) -> In y V \/ In y ctx)).
  { intros ctx env l ids He F. induction F as [| x y ids l Hx _ IH]; intros Hp Hl.
    - exists []. repeat split; intros ? [].
    - cbn in Hp. destruct Hp as [Hp1 Hp2]. apply Forall_cons_iff in Hl as [Hy Hl]. destruct (Hy ctx x env Hx He Hp1) as (V & V1 & V2 & V3). destruct (IH Hp2 Hl) as (U & U1 & U2 & U3).
      exists (V ++ U). split; [| split].
      + intros z [<- | Hz]; apply in_or_app; auto.
      + intros z Hz. apply in_app_or in Hz as [Hz | Hz]; eauto.
      + intros z Hz w Hw. apply in_app_or in Hz as [Hz | Hz]; [destruct (V3 z Hz w Hw) | destruct (U3 z Hz w Hw)]; auto; left; apply in_or_app; auto. }
  induction e using texpr_ind'; intros ctx id env Hr He Hp; pose proof (One _ _ _ _ Hr He Hp) as Hi; inversion Hr; subst.
  - exists [id]. split; [now left |]. split; [intros x [<- | []]; exact Hi |]. intros x [<- | []] y. unfold mentions. match goal with K : def_of _ _ = _ |- _ => rewrite K end. intros [].
  - exists [id]. split; [now left |]. split; [intros x [<- | []]; exact Hi |]. intros x [<- | []] y. unfold mentions. match goal with K : def_of _ _ = _ |- _ => rewrite K end. intros [].
  - cbn [gram_of_t] in Hp. apply productive_cat in Hp as [_ Hp]. match goal with K : Forall2 _ ids l |- _ => destruct (Many ctx env l ids He K Hp H) as (V & V1 & V2 & V3) end.
    exists (id :: V). split; [now left |]. split; [intros x [<- | Hx]; [exact Hi | auto] |]. intros x [<- | Hx] y Hy; [| destruct (V3 x Hx y Hy); cbn; auto].
    unfold mentions in Hy. match goal with K : def_of _ _ = _ |- _ => rewrite K in Hy end. left. right. now apply V1.
  - cbn [gram_of_t] in Hp. apply productive_alt in Hp as [_ Hp]. match goal with K : Forall2 _ ids l |- _ => destruct (Many ctx env l ids He K Hp H) as (V & V1 & V2 & V3) end.
    exists (id :: V). split; [now left |]. split; [intros x [<- | Hx]; [exact Hi | auto] |]. intros x [<- | Hx] y Hy; [| destruct (V3 x Hx y Hy); cbn; auto].
    unfold mentions in Hy. match goal with K : def_of _ _ = _ |- _ => rewrite K in Hy end. left. right. now apply V1.
  - cbn [gram_of_t] in Hp. cbn [productive] in Hp. destruct Hp as [_ Hp].
    match goal with K : repr tab (id :: ctx) j e |- _ => destruct (IHe (id :: ctx) j (derives tab id :: env) K) as (V & V1 & V2 & V3) end.
    + intros [|n] f Hf v; cbn in *; [injection Hf as <-; reflexivity|]. apply He. exact Hf.
    + cbn [map]. eapply productive_mono; [| exact Hp]. apply lenv_le_cons; [| apply lenv_le_refl]. intros w Hw. apply (lang_trees (GFix (gram_of_t e))) in Hw as (t & Ht & <-). exists t. split; [| reflexivity]. now apply (repr_trees tab _ ctx id env Hr He).
    + exists (id :: V). split; [now left |]. split; [intros x [<- | Hx]; [exact Hi | auto] |]. intros x [<- | Hx] y Hy.
      * unfold mentions in Hy. match goal with K : def_of _ _ = _ |- _ => rewrite K in Hy end. destruct Hy as [<- | []]. left. right. exact V1.
      * destruct (V3 x Hx y Hy) as [K | [<- | K]]; cbn; auto.
  - exists [id]. split; [now left |]. split; [intros x [<- | []]; exact Hi |]. intros x [<- | []] y Hy. unfold mentions in Hy. match goal with K : def_of _ _ = _ |- _ => rewrite K in Hy end.
    destruct Hy as [<- | []]. right. match goal with K : nth_error ctx _ = _ |- _ => now apply nth_error_In in K end.
Qed.
