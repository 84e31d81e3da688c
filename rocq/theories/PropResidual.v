(** * C106: one stack, finitely many symbols; and what cannot be written. *)
From Coq Require Import String.
From Verif Require Import SpecResidual SpecDefect LangFacts CombineFacts ResidualFacts PropDefect Examples.
From Coq Require Import List Lia PeanoNat.
Open Scope list_scope.

(** For an accepted grammar there is a finite list of languages such that what
    is left after any beginning of a word is a sequence of some of them, one
    after another. *)
Theorem C106_stack : forall e r g, typecheck e = Ok r -> gram_of e = Some g ->
  exists C : list lang, forall u, (exists w, language g (u ++ w)) -> exists Xs, incl Xs C /\ forall w, residual (language g) u w <-> cats Xs w.
Proof.
  intros e r g E Hg. pose proof (C81_accepted_has_no_defect e r g E Hg) as Hd. exists (comps [] g). intros u [w Hw].
  assert (HC : Forall (leads (comps [] g)) (comps [] g)) by (apply (comps_lead (comps [] g) g []); [exact Hd | apply incl_refl |]; intros [| i] b L H; discriminate H).
  destruct (stack_residual (comps [] g) u HC [language g]) as (Zs & Z1 & _ & Z3); [intros x [<- | []]; apply comps_self | apply separated_one | exists w; now apply cats_one |].
  exists Zs. split; [exact Z1 |]. intros v. rewrite <- Z3, cats_one. reflexivity.
Qed.

(** ** A union that cannot be written *)
Lemma split_repeat (x : char) n l1 l2 : repeat x n = l1 ++ l2 -> exists i j, n = i + j /\ l1 = repeat x i /\ l2 = repeat x j.
Proof.
  intros H. exists (length l1), (length l2). destruct (repeat_eq_app _ _ _ _ H) as [H1 H2]. split; [| auto]. apply (f_equal (@length _)) in H. now rewrite repeat_length, app_length in H.
Qed.
Lemma pick (b c : char) n : 0 < n -> forall Xs, cats Xs (repeat b n) -> cats Xs (repeat c n) ->
  (forall i j, cats Xs (repeat b i ++ repeat c j) -> (i = n /\ j = 0) \/ (i = 0 /\ j = n)) ->
  exists X, In X Xs /\ X (repeat b n) /\ forall w, X w -> cats Xs w.
Proof.
  intros Hn. induction Xs as [| X rest IH]; intros Hb Hc Hs; [destruct n; [lia | discriminate Hb] |].
  destruct Hb as (x & x' & Ex & X1 & X2), Hc as (y & y' & Ey & Y1 & Y2). apply split_repeat in Ex as (i & i' & Ei & -> & ->). apply split_repeat in Ey as (j & j' & Ej & -> & ->).
  destruct (Hs i j') as [[-> K] | [-> K]]; [exists (repeat b i), (repeat c j'); auto | |].
  - assert (i' = 0) as -> by lia. exists X. split; [now left |]. split; [exact X1 |]. intros w Hw. exists w, []. rewrite app_nil_r. auto.
  - assert (j = 0) as -> by lia. cbn in Ei, Ej. subst i' j'. destruct IH as (X' & I1 & I2 & I3); [exact X2 | exact Y2 | |].
    + intros i j H. apply Hs. exists [], (repeat b i ++ repeat c j). auto.
    + exists X'. split; [now right |]. split; [exact I2 |]. intros w Hw. exists [], w. auto.
Qed.
Lemma occ (x y : char) n : count_occ N.eq_dec (repeat x n) y = if N.eq_dec x y then n else 0.
Proof. induction n as [| n IH]; cbn; destruct (N.eq_dec x y); congruence. Qed.
Lemma two_counts a b c n i j : a <> b -> a <> c -> b <> c -> counts a b (repeat a n ++ repeat b i ++ repeat c j) \/ counts a c (repeat a n ++ repeat b i ++ repeat c j) ->
  (i = n /\ j = 0) \/ (i = 0 /\ j = n).
Proof.
  intros H1 H2 H3 [[m E] | [m E]];
    pose proof (f_equal (fun w => count_occ N.eq_dec w a) E) as A; pose proof (f_equal (fun w => count_occ N.eq_dec w b) E) as B; pose proof (f_equal (fun w => count_occ N.eq_dec w c) E) as D;
    cbn beta in A, B, D; rewrite !count_occ_app, !occ in A; rewrite !count_occ_app, !occ in B; rewrite !count_occ_app, !occ in D;
    repeat match goal with H : context [N.eq_dec ?x ?y] |- _ => destruct (N.eq_dec x y); try congruence end; lia.
Qed.
Lemma inverse_nodup (P : nat -> nat -> Prop) : (forall n m k, P n k -> P m k -> n = m) -> forall ns ks, Forall2 P ns ks -> NoDup ns -> NoDup ks.
Proof.
  intros HP ns ks H. induction H as [| n k ns ks Hk Hr IH]; intros Hn; [constructor |]. apply NoDup_cons_iff in Hn as [N1 N2]. constructor; [| auto]. intros Hi. apply N1. clear IH N1 N2.
  induction Hr as [| m k' ns ks Hm _ IH]; [elim Hi |]. destruct Hi as [-> | Hi]; [left; eapply HP; eauto | right; auto].
Qed.
Theorem C106_union_refuted : forall a b c e r g, a <> b -> a <> c -> b <> c -> typecheck e = Ok r -> gram_of e = Some g ->
  ~ (forall w, language g w <-> counts a b w \/ counts a c w).
Proof.
  intros a b c e r g H1 H2 H3 E Hg HL. destruct (C106_stack e r g E Hg) as [C HC].
  pose (P := fun n k => 0 < n /\ exists X, nth_error C k = Some X /\ X (repeat b n) /\ forall w, X w -> language g (repeat a n ++ w)).
  assert (HP : forall n m k, P n k -> P m k -> n = m).
  { intros n m k (N1 & X & X1 & X2 & X3) (M1 & Y & Y1 & Y2 & Y3). rewrite X1 in Y1. injection Y1 as <-. apply X3, HL in Y2. destruct (two_counts a b c n m 0 H1 H2 H3) as [K | K]; [cbn; now rewrite app_nil_r | lia | lia]. }
  assert (Hex : forall n, exists k, P (S n) k).
  { intros n. destruct (HC (repeat a (S n))) as (Xs & I & HX); [exists (repeat b (S n)); apply HL; left; now exists (S n) |]. unfold residual in HX.
    destruct (pick b c (S n) ltac:(lia) Xs) as (X & X1 & X2 & X3); [apply HX, HL; left; now exists (S n) | apply HX, HL; right; now exists (S n) | |].
    - intros i j K. apply HX, HL in K. now apply two_counts in K.
    - apply I, In_nth_error in X1 as [k Hk]. exists k. split; [lia |]. exists X. split; [exact Hk |]. split; [exact X2 |]. intros w Hw. now apply HX, X3. }
  assert (Hks : forall N s, exists ks, Forall2 P (seq (S s) N) ks).
  { induction N as [| N IH]; intros s; [exists []; constructor |]. destruct (Hex s) as [k Hk], (IH (S s)) as [ks Hks]. exists (k :: ks). now constructor. }
  destruct (Hks (S (length C)) 0) as [ks Hk]. pose proof (inverse_nodup P HP _ _ Hk (seq_NoDup _ _)) as ND. assert (Hl : length (seq 1 (S (length C))) = length ks) by (clear - Hk; induction Hk; cbn; congruence). rewrite seq_length in Hl.
  assert (Hi : incl ks (seq 0 (length C))).
  { intros k Hin. apply in_seq. split; [lia |]. cbn. assert (Q : exists n, P n k). { clear - Hk Hin. induction Hk as [| n k' ns ks Hn _ IH]; [elim Hin |]. destruct Hin as [-> | Hin]; eauto. } destruct Q as (n & _ & X & Hx & _). apply nth_error_Some. congruence. }
  pose proof (NoDup_incl_length ND Hi) as Hle. rewrite seq_length in Hle. lia.
Qed.

(** Each half can be written: [!(/r/ _ | "a" . r . "b")]. *)
Definition ecounts (x y : string) : nexpr := fix1 "r" (alt2 (EEps a0) (cat3 (L x) (V 0) (L y))).
Lemma counts_gram (x y : char) w : language (GFix (GAlt [GEps; GCat [GLit [x]; GVar 0; GLit [y]]])) w <-> counts x y w.
Proof.
  assert (K : forall E w, lang_of E (GAlt [GEps; GCat [GLit [x]; GVar 0; GLit [y]]]) w <-> w = [] \/ exists v, nth 0 E lang_empty v /\ w = x :: v ++ [y]).
  { intros E v. rewrite lang_of_alt. cbn [lang_alts]. rewrite lang_of_cat. cbn [lang_cats lang_of]. unfold lang_cat, lang_empty. split.
    - intros [-> | [(? & ? & -> & -> & (u & ? & -> & Hu & (? & ? & -> & -> & ->))) | []]]; [now left | right; exists u; auto].
    - intros [-> | (u & Hu & ->)]; [now left |]. right. left. exists [x], (u ++ [y]). split; [reflexivity |]. split; [reflexivity |]. exists u, [y]. split; [reflexivity |]. split; [exact Hu |]. exists [y], []. auto. }
  assert (S : forall n, repeat x (S n) ++ repeat y (S n) = x :: (repeat x n ++ repeat y n) ++ [y]).
  { intros n. cbn [repeat app]. f_equal. rewrite <- app_assoc. f_equal. change (y :: repeat y n) with (repeat y (S n)). now rewrite <- repeat_cons. }
  split.
  - revert w. apply (lang_fix_least []). intros w Hw. apply K in Hw as [-> | (v & [n ->] & ->)]; [now exists 0 |]. exists (Datatypes.S n). symmetry. apply S.
  - intros [n ->]. induction n as [| n IH]; apply lang_fix_unfold, K; [now left |]. right. exists (repeat x n ++ repeat y n). split; [exact IH | apply S].
Qed.
(** So the languages of accepted grammars are not closed under union. *)
Theorem C106_not_closed : exists e f r s g h, typecheck e = Ok r /\ typecheck f = Ok s /\ gram_of e = Some g /\ gram_of f = Some h /\
  (forall w, language g w <-> counts (chr "a") (chr "b") w) /\ (forall w, language h w <-> counts (chr "a") (chr "c") w) /\
  forall e' r' g', typecheck e' = Ok r' -> gram_of e' = Some g' -> ~ forall w, language g' w <-> language g w \/ language h w.
Proof.
  exists (ecounts "a" "b"), (ecounts "a" "c"). do 4 eexists. split; [vm_compute; reflexivity |]. split; [vm_compute; reflexivity |]. split; [reflexivity |]. split; [reflexivity |].
  split; [apply counts_gram |]. split; [apply counts_gram |]. intros e' r' g' E Hg HL. apply (C106_union_refuted (chr "a") (chr "b") (chr "c") e' r' g'); try discriminate; auto. intros w. rewrite HL. pose proof (counts_gram (chr "a") (chr "b") w) as P. pose proof (counts_gram (chr "a") (chr "c") w) as Q. split; (intros [K | K]; [left; now apply P | right; now apply Q]).
Qed.
(** After "aa" the words left of [ecounts "a" "b"] are stacked: the whole again,
    then "b" twice. *)
Example C106_ex w : residual (counts (chr "a") (chr "b")) (lit "aa") w <-> cats [counts (chr "a") (chr "b"); eq (lit "b"); eq (lit "b")] w.
Proof.
  unfold residual. cbn [cats]. split.
  - intros [[| [| n]] E]; [discriminate E | discriminate E |]. cbn [repeat app] in E. injection E as E. exists (repeat (chr "a") n ++ repeat (chr "b") n), (lit "bb").
    split; [| split; [now exists n | exists (lit "b"), (lit "b"); repeat split; exists (lit "b"), []; auto]]. subst w. rewrite <- app_assoc. f_equal. change (repeat (chr "b") (2 + n) = repeat (chr "b") n ++ repeat (chr "b") 2). rewrite <- repeat_app. f_equal. lia.
  - intros (u & ? & -> & [n ->] & (? & ? & -> & <- & (? & ? & -> & <- & ->))). exists (S (S n)). change (chr "a" :: chr "a" :: ((repeat (chr "a") n ++ repeat (chr "b") n) ++ repeat (chr "b") 2) = chr "a" :: chr "a" :: (repeat (chr "a") n ++ repeat (chr "b") (2 + n))).
    do 2 f_equal. rewrite <- app_assoc, <- repeat_app. do 2 f_equal. lia.
Qed.
Print Assumptions C106_stack.
Print Assumptions C106_union_refuted.
Print Assumptions C106_not_closed.
