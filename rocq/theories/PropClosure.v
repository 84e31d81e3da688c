(** * C110: operations under which the accepted languages are not closed. *)
From Coq Require Import String.
From Verif Require Import SpecClosure SpecDefect LangFacts ResidualFacts PropDefect PropResidual Examples.
From Coq Require Import List Lia PeanoNat.
Open Scope list_scope.

(** ** a^n b^n c^n cannot be written *)
Lemma differing Xs : forall w1 w2, cats Xs w1 -> cats Xs w2 -> w1 <> w2 ->
  exists X p q x y, In X Xs /\ X x /\ X y /\ x <> y /\ w1 = p ++ x ++ q /\ forall v, X v -> cats Xs (p ++ v ++ q).
Proof.
  induction Xs as [| X rest IH]; intros w1 w2 H1 H2 Hd; [cbn in H1, H2; congruence |].
  destruct H1 as (x1 & r1 & -> & X1 & R1), H2 as (x2 & r2 & -> & X2 & R2). destruct (list_eq_dec N.eq_dec x1 x2) as [<- | Hx].
  - destruct (IH r1 r2 R1 R2) as (X' & p & q & x & y & I1 & I2 & I3 & I4 & I5 & I6); [congruence |]. exists X', (x1 ++ p), q, x, y.
    split; [now right |]. split; [exact I2 |]. split; [exact I3 |]. split; [exact I4 |]. split; [rewrite I5; now rewrite <- app_assoc |]. intros v Hv. exists x1, (p ++ v ++ q). rewrite <- app_assoc. auto.
  - exists X, [], r1, x1, x2. split; [now left |]. split; [exact X1 |]. split; [exact X2 |]. split; [exact Hx |]. split; [reflexivity |]. intros v Hv. exists v, r1. auto.
Qed.
Lemma triple_occ a b c n i j : a <> b -> a <> c -> b <> c -> triples a b c (repeat a n ++ repeat b i ++ repeat c j) -> i = n /\ j = n.
Proof.
  intros H1 H2 H3 [m E].
    pose proof (f_equal (fun w => count_occ N.eq_dec w a) E) as A; pose proof (f_equal (fun w => count_occ N.eq_dec w b) E) as B; pose proof (f_equal (fun w => count_occ N.eq_dec w c) E) as D;
    cbn beta in A, B, D; rewrite !count_occ_app, !occ in A; rewrite !count_occ_app, !occ in B; rewrite !count_occ_app, !occ in D;
    repeat match goal with H : context [N.eq_dec ?x ?y] |- _ => destruct (N.eq_dec x y); try congruence end; lia.
Qed.
Lemma front_repeat (x : char) n m l l' : n <= m -> repeat x n ++ l = repeat x m ++ l' -> l = repeat x (m - n) ++ l'.
Proof. intros H E. replace m with (n + (m - n)) in E by lia. rewrite repeat_app, <- app_assoc in E. now apply app_inv_head in E. Qed.
Lemma rev_repeat (x : char) n : rev (repeat x n) = repeat x n.
Proof. induction n as [| n IH]; [reflexivity |]. cbn [repeat rev]. rewrite IH. now rewrite <- repeat_cons. Qed.
(** Where the shortest completion of a^n can be changed. *)
Lemma change_place a b c n p q x y : a <> b -> a <> c -> b <> c -> 0 < n -> x <> y -> repeat b n ++ repeat c n = p ++ x ++ q -> triples a b c (repeat a n ++ p ++ y ++ q) ->
  p = [] /\ exists i j, x = repeat b n ++ repeat c i /\ q = repeat c j.
Proof.
  intros H1 H2 H3 Hn Hxy E [m K].
  assert (Hm : n < m).
  { destruct (Nat.lt_trichotomy m n) as [Hl | [-> | Hl]]; [exfalso | exfalso | exact Hl].
    - symmetry in K. apply front_repeat in K; [| lia]. destruct (n - m) as [| d] eqn:Ed; [lia |]. cbn [repeat app] in K. destruct m as [| m]; cbn in K; [discriminate K | congruence].
    - apply app_inv_head in K. rewrite E in K. apply app_inv_head, app_inv_tail in K. congruence. }
  apply front_repeat in K; [| lia]. destruct (m - n) as [| d] eqn:Ed; [lia |].
  assert (p = []) as ->. { destruct p as [| z p]; [reflexivity | exfalso]. destruct n; [lia |]. cbn in E, K. congruence. }
  split; [reflexivity |]. cbn [app] in E, K. apply app_eq_app in E as [l [[E1 E2] | [E1 E2]]].
  - (* x stops among the b's *) apply split_repeat in E1 as (i & j & En & -> & ->). destruct j as [| j].
    + exists 0, n. cbn in E2. rewrite app_nil_r. split; [f_equal; lia | exact E2].
    + exfalso. subst q. apply (f_equal (@rev _)) in K. rewrite !rev_app_distr, !rev_repeat, <- !app_assoc in K. apply front_repeat in K; [| lia]. replace (m - n) with (S d) in K. cbn in K. congruence.
  - apply split_repeat in E2 as (i & j & En & -> & ->). exists i, j. auto.
Qed.
Theorem C110_triples : forall a b c e r g, a <> b -> a <> c -> b <> c -> typecheck e = Ok r -> gram_of e = Some g ->
  ~ (forall w, language g w <-> triples a b c w).
Proof.
  intros a b c e r g H1 H2 H3 E Hg HL. destruct (C106_stack e r g E Hg) as [C HC].
  pose (P := fun n k => exists X i j, nth_error C k = Some X /\ X (repeat b n ++ repeat c i) /\ forall w, X w -> language g (repeat a n ++ w ++ repeat c j)).
  assert (HP : forall n m k, P n k -> P m k -> n = m).
  { intros n m k (X & i & j & X1 & X2 & _) (Y & _ & j' & Y1 & _ & Y3). rewrite X1 in Y1. injection Y1 as <-. apply Y3, HL in X2. rewrite <- app_assoc, <- repeat_app in X2. apply triple_occ in X2 as [X2 _]; auto. }
  assert (Hex : forall n, exists k, P (S n) k).
  { intros n. destruct (HC (repeat a (S n))) as (Xs & I & HX); [exists (repeat b (S n) ++ repeat c (S n)); apply HL; now exists (S n) |]. unfold residual in HX.
    destruct (differing Xs (repeat b (S n) ++ repeat c (S n)) (a :: repeat b (S (S n)) ++ repeat c (S (S n)))) as (X & p & q & x & y & D1 & D2 & D3 & D4 & D5 & D6).
    - apply HX, HL. now exists (S n).
    - apply HX, HL. exists (S (S n)). change (repeat a (S n) ++ [a] ++ repeat b (S (S n)) ++ repeat c (S (S n)) = repeat a (S (S n)) ++ repeat b (S (S n)) ++ repeat c (S (S n))). rewrite app_assoc. f_equal. now rewrite <- repeat_cons.
    - cbn. congruence.
    - destruct (change_place a b c (S n) p q x y) as (-> & i & j & -> & ->); auto; [lia | apply HL, HX, D6, D3 |].
      apply I, In_nth_error in D1 as [k Hk]. exists k, X, i, j. split; [exact Hk |]. split; [exact D2 |]. intros w Hw. apply HX, (D6 w Hw). }
  assert (Hks : forall N s, exists ks, Forall2 P (seq (S s) N) ks).
  { induction N as [| N IH]; intros s; [exists []; constructor |]. destruct (Hex s) as [k Hk], (IH (S s)) as [ks Hks]. exists (k :: ks). now constructor. }
  destruct (Hks (S (length C)) 0) as [ks Hk]. pose proof (inverse_nodup P HP _ _ Hk (seq_NoDup _ _)) as ND. assert (Hl : length (seq 1 (S (length C))) = length ks) by (clear - Hk; induction Hk; cbn; congruence). rewrite seq_length in Hl.
  assert (Hi : incl ks (seq 0 (length C))).
  { intros k Hin. apply in_seq. split; [lia |]. cbn. assert (Q : exists n, P n k). { clear - Hk Hin. induction Hk as [| n k' ns ks Hn _ IH]; [elim Hin |]. destruct Hin as [-> | Hin]; eauto. } destruct Q as (n & X & i & j & Hx & _). apply nth_error_Some. congruence. }
  pose proof (NoDup_incl_length ND Hi) as Hle. rewrite seq_length in Hle. lia.
Qed.
Print Assumptions C110_triples.

(** ** What can be written *)
(** [!(/r/ "x" . (_ | r) . "y")]: x^n y^n with n at least 1. *)
Definition epairs (x y : string) : nexpr := fix1 "r" (cat3 (L x) (alt2 (EEps a0) (V 0)) (L y)).
Definition gpairs (x y : char) : gram := GFix (GCat [GLit [x]; GAlt [GEps; GVar 0]; GLit [y]]).
(** [!(/r/ _ | "x" . r)] *)
Definition eany (x : string) : nexpr := fix1 "r" (alt2 (EEps a0) (cat2 (L x) (V 0))).
Definition gany (x : char) : gram := GFix (GAlt [GEps; GCat [GLit [x]; GVar 0]]).

Lemma pairs_step (x y : char) n : repeat x (S n) ++ repeat y (S n) = x :: (repeat x n ++ repeat y n) ++ [y].
Proof. cbn [repeat app]. f_equal. rewrite <- app_assoc. f_equal. change (y :: repeat y n) with (repeat y (S n)). now rewrite <- repeat_cons. Qed.
Lemma pairs_gram (x y : char) E w : lang_of E (gpairs x y) w <-> exists n, w = repeat x (S n) ++ repeat y (S n).
Proof.
  assert (K : forall E w, lang_of E (GCat [GLit [x]; GAlt [GEps; GVar 0]; GLit [y]]) w <-> exists v, (v = [] \/ nth 0 E lang_empty v) /\ w = x :: v ++ [y]).
  { intros E' v. rewrite lang_of_cat. cbn [lang_cats lang_of]. unfold lang_cat, lang_empty. split.
    - intros (? & ? & -> & -> & (u & ? & -> & Hu & (? & ? & -> & -> & ->))). exists u. split; [tauto | reflexivity].
    - intros (u & Hu & ->). exists [x], (u ++ [y]). split; [reflexivity |]. split; [reflexivity |]. exists u, [y]. split; [reflexivity |]. split; [tauto |]. exists [y], []. auto. }
  split.
  - revert w. apply (lang_fix_least E). intros w Hw. apply K in Hw as (v & [-> | [n ->]] & ->); [now exists 0 |]. exists (S n). symmetry. apply pairs_step.
  - intros [n ->]. induction n as [| n IH]; apply lang_fix_unfold, K; [exists []; auto |]. exists (repeat x (S n) ++ repeat y (S n)). split; [right; exact IH | apply pairs_step].
Qed.
Lemma any_gram (x : char) E w : lang_of E (gany x) w <-> exists n, w = repeat x n.
Proof.
  assert (K : forall E w, lang_of E (GAlt [GEps; GCat [GLit [x]; GVar 0]]) w <-> w = [] \/ exists v, nth 0 E lang_empty v /\ w = x :: v).
  { intros E' v. rewrite lang_of_alt. cbn [lang_alts]. rewrite lang_of_cat. cbn [lang_cats lang_of]. unfold lang_cat, lang_empty. split.
    - intros [-> | [(? & ? & -> & -> & (u & ? & -> & Hu & ->)) | []]]; [now left | right; exists u; cbn; now rewrite app_nil_r].
    - intros [-> | (u & Hu & ->)]; [now left |]. right. left. exists [x], u. split; [reflexivity |]. split; [reflexivity |]. exists u, []. now rewrite app_nil_r. }
  split.
  - revert w. apply (lang_fix_least E). intros w Hw. apply K in Hw as [-> | (v & [n ->] & ->)]; [now exists 0 | now exists (S n)].
  - intros [n ->]. induction n as [| n IH]; apply lang_fix_unfold, K; [now left |]. right. exists (repeat x n). auto.
Qed.

(** [!(/r/ _ | "c" . r) | !(/r/ "a" . (_ | r) . "b") . !(/r/ _ | "c" . r)] *)
Definition efirst (x y z : string) : nexpr := alt2 (eany z) (cat2 (epairs x y) (eany z)).
Lemma first_gram x y z w : language (GAlt [gany z; GCat [gpairs x y; gany z]]) w <-> first_two x y z w.
Proof.
  unfold language. rewrite lang_of_alt. cbn [lang_alts]. rewrite lang_of_cat. cbn [lang_cats]. rewrite any_gram. split.
  - intros [[m ->] | [(u & ? & -> & Hu & (v & ? & -> & Hv & ->)) | []]]; [now exists 0, m |]. apply pairs_gram in Hu as [n ->]. apply any_gram in Hv as [m ->]. exists (S n), m. now rewrite app_nil_r, <- app_assoc.
  - intros ([| n] & m & ->); [left; now exists m |]. right. left. exists (repeat x (S n) ++ repeat y (S n)), (repeat z m). rewrite <- app_assoc. split; [reflexivity |]. split; [apply pairs_gram; now exists n |]. exists (repeat z m), []. rewrite app_nil_r. split; [reflexivity |]. split; [apply any_gram; now exists m | reflexivity].
Qed.
(** [!(/s/ _ | "a" . s | !(/r/ "b" . (_ | r) . "c"))] *)
Definition elast (x y z : string) : nexpr := fix1 "s" (EAlt a0 (EEps a0) [(0%N, cat2 (L x) (V 0)); (0%N, epairs y z)]).
Lemma last_gram x y z w : language (GFix (GAlt [GEps; GCat [GLit [x]; GVar 0]; gpairs y z])) w <-> last_two x y z w.
Proof.
  assert (K : forall E w, lang_of E (GAlt [GEps; GCat [GLit [x]; GVar 0]; gpairs y z]) w <-> (exists n, w = repeat y n ++ repeat z n) \/ exists v, nth 0 E lang_empty v /\ w = x :: v).
  { intros E v. rewrite lang_of_alt. cbn [lang_alts]. rewrite lang_of_cat, pairs_gram. cbn [lang_cats lang_of]. unfold lang_cat, lang_empty. split.
    - intros [-> | [(? & ? & -> & -> & (u & ? & -> & Hu & ->)) | [[n ->] | []]]]; [left; now exists 0 | right; exists u; cbn; now rewrite app_nil_r | left; now exists (S n)].
    - intros [[[| n] ->] | (u & Hu & ->)]; [now left | right; right; left; now exists n |]. right. left. exists [x], u. split; [reflexivity |]. split; [reflexivity |]. exists u, []. now rewrite app_nil_r. }
  split.
  - revert w. apply (lang_fix_least []). intros w Hw. apply K in Hw as [[n ->] | (v & (n & m & ->) & ->)]; [now exists n, 0 | now exists n, (S m)].
  - intros (n & m & ->). induction m as [| m IH]; apply lang_fix_unfold, K; [left; now exists n |]. right. exists (repeat x m ++ repeat y n ++ repeat z n). auto.
Qed.
Lemma both_triples a b c w : a <> b -> a <> c -> b <> c -> first_two a b c w /\ last_two a b c w <-> triples a b c w.
Proof.
  intros H1 H2 H3. split; [| intros [n ->]; split; now exists n, n]. intros [(n & m & ->) (i & j & E)].
    pose proof (f_equal (fun w => count_occ N.eq_dec w b) E) as B; pose proof (f_equal (fun w => count_occ N.eq_dec w c) E) as D;
    cbn beta in B, D; rewrite !count_occ_app, !occ in B; rewrite !count_occ_app, !occ in D;
    repeat match goal with H : context [N.eq_dec ?x ?y] |- _ => destruct (N.eq_dec x y); try congruence end. exists n. replace m with n by lia. reflexivity.
Qed.

(** C110.  The words that two accepted expressions have in common need not be
    the language of an accepted one. *)
Theorem C110_intersection : exists e f r s g h, typecheck e = Ok r /\ typecheck f = Ok s /\ gram_of e = Some g /\ gram_of f = Some h /\
  (forall w, language g w <-> first_two (chr "a") (chr "b") (chr "c") w) /\ (forall w, language h w <-> last_two (chr "a") (chr "b") (chr "c") w) /\
  forall e' r' g', typecheck e' = Ok r' -> gram_of e' = Some g' -> ~ forall w, language g' w <-> language g w /\ language h w.
Proof.
  exists (efirst "a" "b" "c"), (elast "a" "b" "c"). do 4 eexists. split; [vm_compute; reflexivity |]. split; [vm_compute; reflexivity |]. split; [reflexivity |]. split; [reflexivity |].
  split; [apply first_gram |]. split; [apply last_gram |]. intros e' r' g' E Hg HL. apply (C110_triples (chr "a") (chr "b") (chr "c") e' r' g'); try discriminate; auto. intros w. rewrite HL, <- both_triples by discriminate.
  pose proof (first_gram (chr "a") (chr "b") (chr "c") w) as P. pose proof (last_gram (chr "a") (chr "b") (chr "c") w) as Q. split; (intros [K1 K2]; split; [now apply P | now apply Q]).
Qed.
Print Assumptions C110_intersection.

(** [_ | !(/r/ "x" . (_ | r) . "y") | !(/r/ "z" . (_ | r) . "t")] *)
Definition etwo (x y z t : string) : nexpr := EAlt a0 (EEps a0) [(0%N, epairs x y); (0%N, epairs z t)].
Lemma two_gram x y z t w : language (GAlt [GEps; gpairs x y; gpairs z t]) w <-> counts x y w \/ counts z t w.
Proof.
  unfold language. rewrite lang_of_alt. cbn [lang_alts lang_of]. rewrite !pairs_gram. unfold lang_empty. split.
  - intros [-> | [[n ->] | [[n ->] | []]]]; [left; now exists 0 | left; now exists (S n) | right; now exists (S n)].
  - intros [[[| n] ->] | [[| n] ->]]; [now left | right; left; now exists n | now left | right; right; left; now exists n].
Qed.
(** The words of an accepted expression written backwards. *)
Theorem C110_reversal : exists e r g, typecheck e = Ok r /\ gram_of e = Some g /\
  (forall w, language g w <-> counts (chr "b") (chr "a") w \/ counts (chr "c") (chr "a") w) /\
  forall e' r' g', typecheck e' = Ok r' -> gram_of e' = Some g' -> ~ forall w, language g' w <-> language g (rev w).
Proof.
  exists (etwo "b" "a" "c" "a"). do 2 eexists. split; [vm_compute; reflexivity |]. split; [reflexivity |]. split; [apply two_gram |].
  intros e' r' g' E Hg HL. apply (C106_union_refuted (chr "a") (chr "b") (chr "c") e' r' g'); try discriminate; auto.
  assert (R : forall x y w, counts x y (rev w) <-> counts y x w).
  { intros x y w. split; intros [n K]; exists n; [apply (f_equal (@rev _)) in K; rewrite rev_involutive in K |]; subst w; now rewrite rev_app_distr, !rev_repeat. }
  intros w. rewrite HL, <- (R (chr "b") (chr "a") w), <- (R (chr "c") (chr "a") w). apply two_gram.
Qed.
Print Assumptions C110_reversal.
(** The words of an accepted expression with the characters exchanged for others. *)
Theorem C110_renaming : exists f e r g, typecheck e = Ok r /\ gram_of e = Some g /\
  (forall w, language g w <-> counts (chr "a") (chr "b") w \/ counts (chr "d") (chr "c") w) /\
  forall e' r' g', typecheck e' = Ok r' -> gram_of e' = Some g' -> ~ forall w, language g' w <-> exists v, language g v /\ w = map f v.
Proof.
  exists (fun x => if N.eqb x (chr "d") then chr "a" else x), (etwo "a" "b" "d" "c"). do 2 eexists. split; [vm_compute; reflexivity |]. split; [reflexivity |]. split; [apply two_gram |].
  set (f := fun x => _). intros e' r' g' E Hg HL. apply (C106_union_refuted (chr "a") (chr "b") (chr "c") e' r' g'); try discriminate; auto.
  assert (M : forall x n, map f (repeat x n) = repeat (f x) n) by (intros x n; induction n as [| n IH]; cbn [repeat map]; congruence).
  intros w. rewrite HL. split.
  - intros (v & Hv & ->). apply two_gram in Hv as [[n ->] | [n ->]]; rewrite map_app, !M; [left | right]; now exists n.
  - intros [[n ->] | [n ->]].
    + exists (repeat (chr "a") n ++ repeat (chr "b") n). rewrite map_app, !M. split; [apply two_gram; left; now exists n | reflexivity].
    + exists (repeat (chr "d") n ++ repeat (chr "c") n). rewrite map_app, !M. split; [apply two_gram; right; now exists n | reflexivity].
Qed.
Print Assumptions C110_renaming.

(** ** Mirrored texts *)
Lemma finite_list (C : list lang) (P : nat -> lang -> Prop) : (forall n, exists X, In X C /\ P n X) -> (forall n m X, P n X -> P m X -> n = m) -> False.
Proof.
  intros Hex HP. pose (Q := fun n k => exists X, nth_error C k = Some X /\ P n X).
  assert (HQ : forall n m k, Q n k -> Q m k -> n = m) by (intros n m k (X & X1 & X2) (Y & Y1 & Y2); rewrite X1 in Y1; injection Y1 as <-; eauto).
  assert (Hks : forall N s, exists ks, Forall2 Q (seq s N) ks).
  { induction N as [| N IH]; intros s; [exists []; constructor |]. destruct (Hex s) as (X & Hi & Hx), (IH (S s)) as [ks Hks]. apply In_nth_error in Hi as [k Hk]. exists (k :: ks). constructor; [now exists X | exact Hks]. }
  destruct (Hks (S (length C)) 0) as [ks Hk]. pose proof (inverse_nodup Q HQ _ _ Hk (seq_NoDup _ _)) as ND. assert (Hl : length (seq 0 (S (length C))) = length ks) by (clear - Hk; induction Hk; cbn; congruence). rewrite seq_length in Hl.
  assert (Hi : incl ks (seq 0 (length C))).
  { intros k Hin. apply in_seq. split; [lia |]. cbn. assert (T : exists n, Q n k). { clear - Hk Hin. induction Hk as [| n k' ns ks Hn _ IH]; [elim Hin |]. destruct Hin as [-> | Hin]; eauto. } destruct T as (n & X & Hx & _). apply nth_error_Some. congruence. }
  pose proof (NoDup_incl_length ND Hi) as Hle. rewrite seq_length in Hle. lia.
Qed.
Lemma whole_part t Xs : t <> [] -> cats Xs [] -> cats Xs t -> (forall x y, t = x ++ y -> cats Xs x -> x = [] \/ y = []) -> exists X, In X Xs /\ X t /\ forall v, X v -> cats Xs v.
Proof.
  intros Ht. induction Xs as [| X rest IH]; intros H0 H1 Hp; [elim Ht; exact H1 |].
  destruct H0 as (x0 & r0 & E0 & X0 & R0). symmetry in E0. apply app_eq_nil in E0 as [-> ->]. destruct H1 as (x & y & -> & X1 & R1).
  destruct (Hp x y eq_refl) as [-> | ->]; [exists x, []; rewrite app_nil_r; auto | |].
  - destruct IH as (X' & I1 & I2 & I3); [exact R0 | exact R1 | intros x' y' E K; apply (Hp x' y' E); exists [], x'; auto |]. exists X'. split; [now right |]. split; [exact I2 |]. intros v Hv. exists [], v. auto.
  - rewrite app_nil_r in *. exists X. split; [now left |]. split; [exact X1 |]. intros v Hv. exists v, []. rewrite app_nil_r. auto.
Qed.
Lemma mirrored_rev x y w : mirrored x y w -> rev w = w.
Proof. intros (v & _ & ->). now rewrite rev_app_distr, rev_involutive. Qed.
Lemma all_repeat (x y : char) n : Forall (fun z => z = x \/ z = y) (repeat x n).
Proof. apply Forall_forall. intros z Hz. apply repeat_spec in Hz. auto. Qed.
Lemma mirrored_blocks a b n m : a <> b -> mirrored a b (repeat a n ++ b :: b :: repeat a m) -> m = n.
Proof.
  intros H K. apply mirrored_rev in K. rewrite rev_app_distr in K. cbn [rev] in K. rewrite !rev_repeat, <- !app_assoc in K. cbn [app] in K.
  destruct (Nat.lt_trichotomy m n) as [Hl | [-> | Hl]]; [exfalso | reflexivity | exfalso].
  - apply front_repeat in K; [| lia]. destruct (n - m) as [| d] eqn:Ed; [lia |]. cbn in K. congruence.
  - symmetry in K. apply front_repeat in K; [| lia]. destruct (m - n) as [| d] eqn:Ed; [lia |]. cbn in K. congruence.
Qed.
Theorem C110_mirrored : forall a b e r g, a <> b -> typecheck e = Ok r -> gram_of e = Some g -> ~ (forall w, language g w <-> mirrored a b w).
Proof.
  intros a b e r g Hab E Hg HL. destruct (C106_stack e r g E Hg) as [C HC].
  apply (finite_list C (fun n X => X (b :: b :: repeat a (2 * n + 2)) /\ forall w, X w -> language g (repeat a (2 * n + 2) ++ w))).
  - intros n. set (N := 2 * n + 2). assert (Hc : language g (repeat a N ++ b :: b :: repeat a N)).
    { apply HL. exists (repeat a N ++ [b]). split; [apply Forall_app; split; [apply all_repeat | constructor; auto] |]. rewrite rev_app_distr, rev_repeat, <- app_assoc. reflexivity. }
    destruct (HC (repeat a N)) as (Xs & I & HX); [now exists (b :: b :: repeat a N) |]. unfold residual in HX.
    destruct (whole_part (b :: b :: repeat a N) Xs) as (X & X1 & X2 & X3); [discriminate | | now apply HX | |].
    + apply HX, HL. exists (repeat a (S n)). split; [apply all_repeat |]. rewrite rev_repeat, app_nil_r, <- repeat_app. f_equal. lia.
    + intros x y Exy K. apply HX, HL in K. destruct x as [| z [| z' x]]; [now left | exfalso | right]; cbn [app] in Exy.
      * injection Exy as <- _. apply mirrored_rev in K. rewrite rev_app_distr, rev_repeat in K. cbn [rev app] in K. replace N with (S (2 * n + 1)) in K by lia. cbn in K. congruence.
      * injection Exy as <- <- Er. apply split_repeat in Er as (i & j & En & -> & ->). apply mirrored_blocks in K; [| exact Hab]. replace j with 0 by lia. reflexivity.
    + exists X. split; [now apply I |]. split; [exact X2 |]. intros w Hw. now apply HX, X3.
  - intros n m X [X1 _] [_ Y2]. apply Y2, HL in X1. apply mirrored_blocks in X1; [lia | exact Hab].
Qed.
Print Assumptions C110_mirrored.
(** With a mark in the middle: [!(/r/ "m" | "x" . r . "x" | "y" . r . "y")]. *)
Definition emarked (x y m : string) : nexpr := fix1 "r" (EAlt a0 (L m) [(0%N, cat3 (L x) (V 0) (L x)); (0%N, cat3 (L y) (V 0) (L y))]).
Lemma marked_gram x y m w : language (GFix (GAlt [GLit [m]; GCat [GLit [x]; GVar 0; GLit [x]]; GCat [GLit [y]; GVar 0; GLit [y]]])) w <-> marked x y m w.
Proof.
  assert (K1 : forall E z w, lang_of E (GCat [GLit [z]; GVar 0; GLit [z]]) w <-> exists v, nth 0 E lang_empty v /\ w = z :: v ++ [z]).
  { intros E z v. rewrite lang_of_cat. cbn [lang_cats lang_of]. unfold lang_cat. split.
    - intros (? & ? & -> & -> & (u & ? & -> & Hu & (? & ? & -> & -> & ->))). now exists u.
    - intros (u & Hu & ->). exists [z], (u ++ [z]). split; [reflexivity |]. split; [reflexivity |]. exists u, [z]. split; [reflexivity |]. split; [exact Hu |]. exists [z], []. auto. }
  assert (K : forall E w, lang_of E (GAlt [GLit [m]; GCat [GLit [x]; GVar 0; GLit [x]]; GCat [GLit [y]; GVar 0; GLit [y]]]) w <-> w = [m] \/ exists z v, (z = x \/ z = y) /\ nth 0 E lang_empty v /\ w = z :: v ++ [z]).
  { intros E v. rewrite lang_of_alt. cbn [lang_alts]. rewrite !K1. cbn [lang_of]. unfold lang_empty at 3. split.
    - intros [-> | [(u & Hu & ->) | [(u & Hu & ->) | []]]]; [now left | right; exists x, u; auto | right; exists y, u; auto].
    - intros [-> | (z & u & [-> | ->] & Hu & ->)]; [now left | right; left; eauto | right; right; left; eauto]. }
  split.
  - revert w. apply (lang_fix_least []). intros w Hw. apply K in Hw as [-> | (z & u & Hz & (v & Hv & ->) & ->)]; [exists []; split; [constructor | reflexivity] |]. exists (z :: v). split; [now constructor |]. cbn [rev app]. now rewrite <- app_assoc.
  - intros (v & Hv & ->). induction Hv as [| z v Hz _ IH]; apply lang_fix_unfold, K; [now left |]. right. exists z, (v ++ m :: rev v). split; [exact Hz |]. split; [exact IH |]. cbn [rev app]. now rewrite <- app_assoc.
Qed.
Theorem C110_marked : exists r g, typecheck (emarked "a" "b" "c") = Ok r /\ gram_of (emarked "a" "b" "c") = Some g /\ forall w, language g w <-> marked (chr "a") (chr "b") (chr "c") w.
Proof. do 2 eexists. split; [vm_compute; reflexivity |]. split; [reflexivity |]. apply marked_gram. Qed.
Print Assumptions C110_marked.

(** ** Optional ends: a^n b^m with m at most n *)
(** The stack of C106, and one character always tells whether its front goes on or
    its rest begins. *)
Theorem C110_stack : forall e r g, typecheck e = Ok r -> gram_of e = Some g ->
  exists C : list lang, forall u, (exists w, language g (u ++ w)) -> exists Xs, incl Xs C /\ told_apart Xs /\ forall w, residual (language g) u w <-> cats Xs w.
Proof.
  intros e r g E Hg. pose proof (C81_accepted_has_no_defect e r g E Hg) as Hd. exists (comps [] g). intros u [w Hw].
  assert (HC : Forall (leads (comps [] g)) (comps [] g)) by (apply (comps_lead (comps [] g) g []); [exact Hd | apply incl_refl |]; intros [| i] b L H; discriminate H).
  destruct (stack_residual (comps [] g) u HC [language g]) as (Zs & Z1 & Z2 & Z3); [intros x [<- | []]; apply comps_self | apply separated_one | exists w; now apply cats_one |].
  exists Zs. split; [exact Z1 |]. split; [exact Z2 |]. intros v. rewrite <- Z3, cats_one. reflexivity.
Qed.
Print Assumptions C110_stack.
Lemma at_most_blocks a b n m : a <> b -> at_most a b (repeat a n ++ repeat b m) <-> m <= n.
Proof.
  intros Hab. split; [| intros H; now exists n, m]. intros (i & j & H & E).
    pose proof (f_equal (fun w => count_occ N.eq_dec w a) E) as A; pose proof (f_equal (fun w => count_occ N.eq_dec w b) E) as B;
    cbn beta in A, B; rewrite !count_occ_app, !occ in A; rewrite !count_occ_app, !occ in B;
    repeat match goal with H : context [N.eq_dec ?x ?y] |- _ => destruct (N.eq_dec x y); try congruence end; lia.
Qed.
Lemma at_most_order a b n w z : a <> b -> at_most a b (repeat a n ++ w) -> In z w -> z = a \/ z = b.
Proof.
  intros Hab (i & j & _ & E) Hz. assert (K : In z (repeat a i ++ repeat b j)) by (rewrite <- E; apply in_or_app; now right). apply in_app_or in K as [K | K]; apply repeat_spec in K; auto.
Qed.
Lemma at_most_no_ba a b n w : a <> b -> ~ at_most a b (repeat a n ++ b :: w ++ [a]).
Proof.
  intros Hab (i & j & H & E). apply (f_equal (@rev _)) in E. rewrite !rev_app_distr in E. cbn [rev] in E. rewrite !rev_app_distr, !rev_repeat, <- !app_assoc in E. cbn [rev app] in E.
  destruct j as [| j]; cbn in E; [| congruence]. assert (K : In b (repeat a i)). { rewrite <- E. right. apply in_or_app. right. now left. } apply repeat_spec in K. congruence.
Qed.
Lemma only_stack a b n : a <> b -> 0 < n -> forall Xs, told_apart Xs -> (forall w, cats Xs w <-> at_most a b (repeat a n ++ w)) -> exists X, In X Xs /\ forall w, X w <-> at_most a b (repeat a n ++ w).
Proof.
  intros Hab Hn. induction Xs as [| X rest IH]; intros Hs HX.
  - assert (K : cats [] [a]) by (apply HX; exists (n + 1), 0; split; [lia |]; now rewrite repeat_app, app_nil_r). discriminate K.
  - assert (K0 : cats (X :: rest) []) by (apply HX; exists n, 0; split; [lia | reflexivity]). destruct K0 as (x0 & r0 & E0 & X0 & R0). symmetry in E0. apply app_eq_nil in E0 as [-> ->].
    assert (HXX : forall v, X v -> at_most a b (repeat a n ++ v)) by (intros v Hv; apply HX; exists v, []; rewrite app_nil_r; auto).
    assert (HR : forall v, cats rest v -> at_most a b (repeat a n ++ v)) by (intros v Hv; apply HX; exists [], v; auto).
    assert (Hs1 : forall c, continues X c -> ~ begins (cats rest) c).
    { intros c (u & v & H1 & H2). apply (Hs [X] rest c eq_refl). exists u, v. split; now apply cats_one. }
    assert (Ka : cats (X :: rest) [a]) by (apply HX; exists (n + 1), 0; split; [lia |]; now rewrite repeat_app, app_nil_r).
    destruct Ka as (x & y & E & Xx & Ry). destruct x as [| z [| z' x]]; [cbn in E; subst y | | discriminate E].
    + (* the first language is empty text only *)
      assert (X1 : forall v, X v -> v = []).
      { intros [| z v] Hv; [reflexivity | exfalso]. destruct (at_most_order a b n (z :: v) z Hab (HXX _ Hv) (or_introl eq_refl)) as [-> | ->].
        - apply (Hs1 a); [exists [], v; auto | now exists []].
        - apply (at_most_no_ba a b n v Hab). apply HX. exists (b :: v), [a]. auto. }
      destruct IH as (X' & I1 & I2); [eapply separated_tail; eauto | | exists X'; split; [now right | exact I2]].
      intros w. rewrite <- HX. split; [intros Hw; now exists [], w |]. intros (u & v & -> & Hu & Hv). now rewrite (X1 _ Hu).
    + injection E as <- <-. assert (Na : ~ begins (cats rest) a) by (apply Hs1; exists [], []; auto).
      assert (Kb : cats (X :: rest) [b]) by (apply HX; change [b] with (repeat b 1); apply at_most_blocks; [exact Hab | lia]).
      destruct Kb as (x & y & E & Xb & Rb). destruct x as [| z [| z' x]]; [cbn in E; subst y | | discriminate E].
      * exfalso. assert (Nb : ~ continues X b) by (intros Hc; apply (Hs1 b Hc); now exists []).
        assert (Kk : cats (X :: rest) (a :: repeat b (S n))).
        { apply HX. exists (n + 1), (S n). split; [lia |]. rewrite repeat_app, <- app_assoc. reflexivity. }
        destruct Kk as (x & y & E & Xk & Ryy). destruct x as [| z x]; [cbn in E; subst y; apply Na; now exists (repeat b (S n)) |].
        injection E as <- E. change (b :: repeat b n) with (repeat b (S n)) in E. apply split_repeat in E as (i & j & En & -> & ->). destruct i as [| i].
        -- apply HR, at_most_blocks in Ryy; [lia | exact Hab].
        -- apply Nb. exists [a], (repeat b i). auto.
      * injection E as <- <-. assert (Nb : ~ begins (cats rest) b) by (apply Hs1; exists [], []; auto).
        exists X. split; [now left |]. intros w. split; [apply HXX |]. intros Hw. apply HX in Hw as (u & v & -> & Hu & Hv). destruct v as [| z v]; [now rewrite app_nil_r | exfalso].
        destruct (at_most_order a b n (z :: v) z Hab (HR _ Hv) (or_introl eq_refl)) as [-> | ->]; [apply Na | apply Nb]; now exists v.
Qed.
Theorem C110_at_most : forall a b e r g, a <> b -> typecheck e = Ok r -> gram_of e = Some g -> ~ (forall w, language g w <-> at_most a b w).
Proof.
  intros a b e r g Hab E Hg HL. destruct (C110_stack e r g E Hg) as [C HC].
  apply (finite_list C (fun n X => forall w, X w <-> at_most a b (repeat a (S n) ++ w))).
  - intros n. destruct (HC (repeat a (S n))) as (Xs & I & Hs & HX); [exists []; apply HL; exists (S n), 0; split; [lia | reflexivity] |].
    destruct (only_stack a b (S n) Hab ltac:(lia) Xs Hs) as (X & X1 & X2); [intros w; rewrite <- HX; apply HL |]. exists X. split; [now apply I | exact X2].
  - assert (K : forall n m X, (forall w, X w <-> at_most a b (repeat a (S n) ++ w)) -> (forall w, X w <-> at_most a b (repeat a (S m) ++ w)) -> n <= m).
    { intros n m X H1 H2. assert (Hx : X (repeat b (S n))) by (apply H1, at_most_blocks; auto). apply H2, at_most_blocks in Hx; [lia | exact Hab]. }
    intros n m X H1 H2. apply Nat.le_antisymm; eapply K; eauto.
Qed.
Print Assumptions C110_at_most.
(** At least as many can be written:
    [!(/r/ _ | "b" . r) | !(/r/ "a" . (_ | r) . "b") . !(/r/ _ | "b" . r)]. *)
Theorem C110_at_least : exists r g, typecheck (efirst "a" "b" "b") = Ok r /\ gram_of (efirst "a" "b" "b") = Some g /\ forall w, language g w <-> at_least (chr "a") (chr "b") w.
Proof.
  do 2 eexists. split; [vm_compute; reflexivity |]. split; [reflexivity |]. intros w. pose proof (first_gram (chr "a") (chr "b") (chr "b") w) as P. etransitivity; [exact P |]. split.
  - intros (n & m & ->). exists n, (n + m). rewrite repeat_app. split; [lia | reflexivity].
  - intros (n & m & H & ->). exists n, (m - n). rewrite <- repeat_app. do 2 f_equal. lia.
Qed.
Print Assumptions C110_at_least.
(** The beginnings of the words of an accepted expression. *)
Theorem C110_beginnings : exists e r g, typecheck e = Ok r /\ gram_of e = Some g /\ (forall w, language g w <-> counts (chr "a") (chr "b") w) /\
  forall e' r' g', typecheck e' = Ok r' -> gram_of e' = Some g' -> ~ forall u, language g' u <-> exists v, language g (u ++ v).
Proof.
  exists (ecounts "a" "b"). do 2 eexists. split; [vm_compute; reflexivity |]. split; [reflexivity |]. split; [apply counts_gram |].
  intros e' r' g' E Hg HL. apply (C110_at_most (chr "a") (chr "b") e' r' g'); try discriminate; auto. intros u. rewrite HL. split.
  - intros [v Hv]. apply counts_gram in Hv as [n K]. symmetry in K. apply app_eq_app in K as [l [[K1 K2] | [K1 K2]]].
    + apply split_repeat in K1 as (i & j & En & -> & ->). exists i, 0. split; [lia |]. now rewrite app_nil_r.
    + apply split_repeat in K2 as (i & j & En & -> & ->). exists n, i. split; [lia | exact K1].
  - intros (n & m & H & ->). exists (repeat (chr "b") (n - m)). apply counts_gram. exists n. rewrite <- app_assoc, <- repeat_app. do 2 f_equal. lia.
Qed.
Print Assumptions C110_beginnings.
