(** * CombineFacts: defects of combined grammars. *)
From Verif Require Import SpecCombine SpecDefect LangFacts ExactFacts ReplaceFacts ViableFacts DefectFacts UnrollFacts.
From Coq Require Import Lia.

Lemma closed_lang g E w : closed_below 0 g -> (lang_of E g w <-> language g w).
Proof. intros Hc. unfold language. split; apply (lang_of_closed g 0); auto; intros i Hi; lia. Qed.
Lemma closed_more g : forall n m, n <= m -> closed_below n g -> closed_below m g.
Proof.
  induction g using gram_ind'; intros n m Hm Hc; try (cbn in *; auto; lia).
  - rewrite closed_cat in *. rewrite closeds_in in *. rewrite Forall_forall in *. eauto.
  - rewrite closed_alt in *. rewrite closeds_in in *. rewrite Forall_forall in *. eauto.
  - cbn in *. apply (IHg (S n)); [lia | exact Hc].
Qed.
(** Scopes that agree on the first [n] variables, the second with more words. *)
Definition scope_below (n : nat) (r s : scope) : Prop :=
  forall i, i < n -> exists b L M, nth_error r i = Some (b, L) /\ nth_error s i = Some (b, M) /\ lang_le L M.
Lemma below_langs n r s : scope_below n r s -> lenv_below n (langs r) (langs s).
Proof.
  intros H i Hi. destruct (H i Hi) as (b & L & M & H1 & H2 & H3). unfold langs. rewrite (nth_error_nth _ i lang_empty (map_nth_error snd i r H1)), (nth_error_nth _ i lang_empty (map_nth_error snd i s H2)). exact H3.
Qed.
Lemma below_lang n r s g w : scope_below n r s -> closed_below n g -> lang_of (langs r) g w -> lang_of (langs s) g w.
Proof. intros H Hc. apply (lang_of_closed g n); [exact Hc | now apply below_langs]. Qed.
Lemma below_behind n r s : scope_below n r s -> scope_below n (behind r) (behind s).
Proof. intros H i Hi. destruct (H i Hi) as (b & L & M & H1 & H2 & H3). exists true, L, M. unfold behind. now rewrite (map_nth_error _ _ _ H1), (map_nth_error _ _ _ H2). Qed.
Lemma below_enter n r s g : scope_below n r s -> closed_below (S n) g -> scope_below (S n) (enter g r) (enter g s).
Proof. intros H Hc [| i] Hi; [| apply H; lia]. exists false, (lang_of (langs r) (GFix g)), (lang_of (langs s) (GFix g)). split; [reflexivity |]. split; [reflexivity |]. intros w. exact (below_lang n r s (GFix g) w H Hc). Qed.
Lemma closeds_app n l m : closeds n (l ++ m) <-> closeds n l /\ closeds n m.
Proof. rewrite !closeds_in. apply Forall_app. Qed.

Lemma defect_below r g : defect r g -> forall n s, scope_below n r s -> closed_below n g -> defect s g.
Proof.
  induction 1 as [r i H | r i L H | r g gs H | r gs h rest u c v w Hn Hu Hv Hw | r l g m h k Hg Hh | r l g m h k c v w Hg Hh | r g gs _ IH | r g gs h Hi _ IH | r gs h Hi _ IH | r g H IH]; intros n s Hs Hc.
  - cbn in Hc. destruct (Hs i Hc) as (b & L & M & H1 & _). apply nth_error_None in H. congruence.
  - cbn in Hc. destruct (Hs i Hc) as (b & L' & M & H1 & H2 & _). rewrite H in H1. injection H1 as <- <-. now apply (defect_exposed s i M).
  - apply defect_nullable. rewrite closed_cat in Hc. destruct Hc as [Hc _]. eapply below_lang; eauto.
  - rewrite closed_cat in Hc. apply closeds_app in Hc as [Hc1 [Hc2 _]]. rewrite <- closed_cat in Hc1. apply (defect_end s gs h rest u c v w Hn); eapply below_lang; eauto.
  - rewrite closed_alt in Hc. apply closeds_app in Hc as [_ [Hc1 Hc]]. apply closeds_app in Hc as [_ [Hc2 _]]. apply defect_both; eapply below_lang; eauto.
  - rewrite closed_alt in Hc. apply closeds_app in Hc as [_ [Hc1 Hc]]. apply closeds_app in Hc as [_ [Hc2 _]]. apply (defect_start s l g m h k c v w); eapply below_lang; eauto.
  - rewrite closed_cat in Hc. destruct Hc as [Hc _]. apply defect_in_first. eauto.
  - rewrite closed_cat in Hc. destruct Hc as [_ Hc]. apply closeds_in in Hc. rewrite Forall_forall in Hc. apply (defect_in_rest s g gs h Hi). eapply IH; [apply below_behind; exact Hs | auto].
  - rewrite closed_alt in Hc. apply closeds_in in Hc. rewrite Forall_forall in Hc. apply (defect_in_alt s gs h Hi). eauto.
  - apply defect_in_fix. cbn in Hc. eapply IH; [apply below_enter; [exact Hs | exact Hc] | exact Hc].
Qed.
Lemma defect_closed r g : closed_below 0 g -> defect r g -> defect [] g.
Proof. intros Hc D. apply (defect_below r g D 0); [| exact Hc]. intros i Hi. lia. Qed.
Lemma productive_anywhere E g : productive [] g -> productive E g.
Proof. apply productive_mono. intros i w Hw. now destruct i. Qed.

(** ** Two grammars *)
Lemma pair_of {A} (x y : A) l a m b n : [x; y] = l ++ a :: m ++ b :: n -> a = x /\ b = y.
Proof.
  destruct l as [| x1 l]; cbn [app]; intros E; injection E as -> E.
  - destruct m as [| x2 m]; cbn [app] in E; injection E as -> E; [auto |]. now destruct m.
  - destruct l as [| x2 l]; cbn [app] in E; injection E as -> E; [now destruct m |]. now destruct l.
Qed.
Lemma front_of {A} (x y : A) l a n : [x; y] = l ++ a :: n -> l <> [] -> l = [x] /\ a = y.
Proof.
  destruct l as [| x1 l]; [congruence |]. cbn [app]. intros E _. injection E as -> E. destruct l as [| x2 l]; cbn [app] in E; injection E as -> E; [auto |]. now destruct l.
Qed.
Lemma cat_one E g w : lang_of E (GCat [g]) w <-> lang_of E g w.
Proof. rewrite lang_of_cat. cbn [lang_cats]. split; [intros (u & v & -> & H & ->); now rewrite app_nil_r | intros H; exists w, []; now rewrite app_nil_r]. Qed.
Lemma cat_two E g h w : lang_of E (GCat [g; h]) w <-> exists u v, w = u ++ v /\ lang_of E g u /\ lang_of E h v.
Proof.
  rewrite !lang_of_cat. cbn [lang_cats]. split; [intros (u & v & -> & H & (v1 & v2 & -> & H1 & ->)); rewrite app_nil_r; eauto | intros (u & v & -> & H & H1)]. exists u, v. repeat split; auto. exists v, []. now rewrite app_nil_r.
Qed.
Lemma alt_two E g h w : lang_of E (GAlt [g; h]) w <-> lang_of E g w \/ lang_of E h w.
Proof. rewrite lang_of_alt. cbn [lang_alts]. unfold lang_empty. tauto. Qed.

Lemma alt_defect r g h : defect r (GAlt [g; h]) <-> defect r g \/ defect r h \/ (lang_of (langs r) g [] /\ lang_of (langs r) h []) \/ exists c, begins (lang_of (langs r) g) c /\ begins (lang_of (langs r) h) c.
Proof.
  split.
  - intros D. inversion D as [| | | | r' l g1 m h1 n Hg Hh E1 E2 | r' l g1 m h1 n c v w Hg Hh E1 E2 | | | r' gs h1 Hi Hd E1 E2 |]; subst.
    + symmetry in E2. apply pair_of in E2 as [-> ->]. auto.
    + symmetry in E2. apply pair_of in E2 as [-> ->]. right. right. right. exists c. split; red; eauto.
    + destruct Hi as [<- | [<- | []]]; auto.
  - intros [H | [H | [[H1 H2] | (c & [v H1] & [w H2])]]].
    + apply (defect_in_alt r _ g); cbn; auto.
    + apply (defect_in_alt r _ h); cbn; auto.
    + now apply (defect_both r [] g [] h []).
    + now apply (defect_start r [] g [] h [] c v w).
Qed.
Lemma cat_defect r g h : defect r (GCat [g; h]) <-> defect r g \/ defect (behind r) h \/ lang_of (langs r) g [] \/ exists c, continues (lang_of (langs r) g) c /\ begins (lang_of (langs r) h) c.
Proof.
  split.
  - intros D. inversion D as [| | r' g1 gs H E1 E2 | r' gs h1 rest u c v w Hn Hu Hv Hw E1 E2 | | | r' g1 gs H E1 E2 | r' g1 gs h1 Hi H E1 E2 | |]; subst; auto.
    + symmetry in E2. apply front_of in E2 as [-> ->]; [| exact Hn]. rewrite cat_one in Hu, Hv. right. right. right. exists c. split; red; eauto.
    + destruct Hi as [<- | []]. auto.
  - intros [H | [H | [H | (c & (u & v & Hu & Hv) & (w & Hw))]]].
    + now apply defect_in_first.
    + apply (defect_in_rest r g [h] h); cbn; auto.
    + now apply defect_nullable.
    + apply (defect_end r [g] h [] u c v w); try rewrite cat_one; auto. discriminate.
Qed.

(** ** Repetition *)
Definition gstar (g : gram) : gram := GFix (GAlt [GEps; GCat [g; GVar 0]]).
Definition gplus (g : gram) : gram := GFix (GCat [g; GAlt [GEps; GVar 0]]).
Lemma star_lang g E w : closed_below 0 g -> (lang_of E (gstar g) w <-> many (language g) w).
Proof.
  intros Hc. split.
  - revert w. apply lang_fix_least. intros w Hw. rewrite alt_two, cat_two in Hw. destruct Hw as [-> | (u & v & -> & Hu & Hv)]; [constructor |]. constructor; [now apply (closed_lang g (many (language g) :: E)) | exact Hv].
  - intros H. induction H as [| u v Hu _ IH]; apply lang_fix_unfold; rewrite alt_two, cat_two; [now left |]. right. exists u, v. split; [reflexivity |]. split; [now apply closed_lang | exact IH].
Qed.
Lemma plus_lang g E w : closed_below 0 g -> (lang_of E (gplus g) w <-> lang_cat (language g) (many (language g)) w).
Proof.
  intros Hc. split.
  - revert w. apply lang_fix_least. intros w Hw. rewrite cat_two in Hw. destruct Hw as (u & v & -> & Hu & Hv). exists u, v. split; [reflexivity |]. split; [now apply closed_lang in Hu |]. rewrite alt_two in Hv. destruct Hv as [-> | (x & y & -> & Hx & Hy)]; now constructor.
  - intros (u & v & -> & Hu & Hv). revert u Hu. induction Hv as [| x y Hx _ IH]; intros u Hu; apply lang_fix_unfold; rewrite cat_two.
    + exists u, []. split; [reflexivity |]. split; [now apply closed_lang |]. rewrite alt_two. now left.
    + exists u, (x ++ y). split; [reflexivity |]. split; [now apply closed_lang |]. rewrite alt_two. right. now apply IH.
Qed.
Lemma many_begins L c : ~ L [] -> begins (many L) c -> begins L c.
Proof.
  intros Hn [w Hw]. remember (c :: w) as x eqn:E. destruct Hw as [| u v Hu _]; [discriminate |]. destruct u as [| d u]; [now elim Hn |]. injection E as -> _. now exists u.
Qed.
Lemma begins_many L c : begins L c -> begins (many L) c.
Proof. intros [w Hw]. exists (w ++ []). apply (many_more L (c :: w) []); [exact Hw | constructor]. Qed.
Lemma plus_starts L c : ~ L [] -> begins (lang_cat L (many L)) c <-> begins L c.
Proof.
  intros Hn. split.
  - intros [w (u & v & E & Hu & _)]. destruct u as [| d u]; [now elim Hn |]. injection E as -> _. now exists u.
  - intros [w Hw]. exists w. exists (c :: w), []. rewrite app_nil_r. repeat split; auto. constructor.
Qed.
Lemma same_begins (L M : lang) c : (forall w, L w <-> M w) -> begins L c <-> begins M c.
Proof. intros H. split; intros [w Hw]; exists w; now apply H. Qed.
Lemma same_continues (L M : lang) c : (forall w, L w <-> M w) -> continues L c <-> continues M c.
Proof. intros H. split; intros (u & v & Hu & Hv); exists u, v; split; now apply H. Qed.

Lemma begins_or g c : begins (many (language g)) c -> begins (language g) c \/ language g [].
Proof.
  intros [w Hw]. remember (c :: w) as x eqn:E. revert w E. induction Hw as [| u v Hu _ IH]; intros w E; [discriminate |]. destruct u as [| d u]; [auto |]. injection E as -> _. left. now exists u.
Qed.
Lemma star_defect g : closed_below 0 g -> ~ defect [] g -> (~ defect [] (gstar g) <-> joinable (language g) (language g)).
Proof.
  intros Hc Hg. pose (r := enter (GAlt [GEps; GCat [g; GVar 0]]) []). assert (Lg : forall w, lang_of (langs r) g w <-> language g w) by (intros w; now apply closed_lang).
  assert (LV : forall w, lang_of (langs r) (GVar 0) w <-> many (language g) w) by (intros w; now apply (star_lang g [] w)).
  assert (D : defect [] (gstar g) <-> language g [] \/ exists c, continues (language g) c /\ begins (language g) c).
  { split.
    - intros D. inversion D as [| | | | | | | | | r' b D' E1 E2]; subst. fold r in D'. rewrite alt_defect, cat_defect in D'. destruct D' as [D' | [[D' | [D' | [D' | (c & D1 & D2)]]] | [[_ D'] | (c & [w D1] & _)]]].
      + inversion D'.
      + elim Hg. now apply (defect_closed r).
      + inversion D' as [r' i H E1 E2 | r' i L H E1 E2 | | | | | | | |]; subst; cbn in H; [lia | discriminate].
      + left. now apply Lg.
      + apply (same_continues _ _ _ Lg) in D1. apply (same_begins _ _ _ LV) in D2. destruct (begins_or g c D2) as [K | K]; auto. right. eauto.
      + left. rewrite cat_two in D'. destruct D' as (u & v & E & Hu & _). symmetry in E. apply app_eq_nil in E as [-> _]. now apply Lg.
      + discriminate D1.
    - intros K. apply defect_in_fix. fold r. rewrite alt_defect, cat_defect. right. left. right. right. destruct K as [K | (c & K1 & K2)]; [left; now apply Lg |]. right. exists c. split; [now apply (same_continues _ _ _ Lg) |]. apply (same_begins _ _ _ LV). now apply begins_many. }
  rewrite D. unfold joinable. split.
  - intros K. split; [auto |]. intros c K1 K2. apply K. right. eauto.
  - intros [K1 K2] [K | (c & K3 & K4)]; [auto |]. exact (K2 c K3 K4).
Qed.
Lemma plus_begins_or g c : begins (lang_cat (language g) (many (language g))) c -> begins (language g) c \/ language g [].
Proof. intros [w (u & v & E & Hu & _)]. destruct u as [| d u]; [auto |]. injection E as -> _. left. now exists u. Qed.
Lemma plus_defect g : closed_below 0 g -> ~ defect [] g -> (~ defect [] (gplus g) <-> joinable (language g) (language g)).
Proof.
  intros Hc Hg. pose (r := enter (GCat [g; GAlt [GEps; GVar 0]]) []). assert (Lg : forall w, lang_of (langs r) g w <-> language g w) by (intros w; now apply closed_lang).
  assert (LV : forall w, lang_of (langs r) (GVar 0) w <-> lang_cat (language g) (many (language g)) w) by (intros w; now apply (plus_lang g [] w)).
  assert (D : defect [] (gplus g) <-> language g [] \/ exists c, continues (language g) c /\ begins (language g) c).
  { split.
    - intros D. inversion D as [| | | | | | | | | r' b D' E1 E2]; subst. fold r in D'. rewrite cat_defect, alt_defect in D'. destruct D' as [D' | [[D' | [D' | [[_ D'] | (c & [w D1] & _)]]] | [D' | (c & D1 & D2)]]].
      + elim Hg. now apply (defect_closed r).
      + inversion D'.
      + inversion D' as [r' i H E1 E2 | r' i L H E1 E2 | | | | | | | |]; subst; cbn in H; [lia | discriminate].
      + left. apply LV in D'. destruct D' as (u & v & E & Hu & _). symmetry in E. apply app_eq_nil in E as [-> _]. exact Hu.
      + discriminate D1.
      + left. now apply Lg.
      + apply (same_begins _ _ _ Lg) in D1 || apply (same_continues _ _ _ Lg) in D1. assert (D3 : begins (lang_of (langs r) (GVar 0)) c). { destruct D2 as [w D2]. apply alt_two in D2 as [D2 | D2]; [discriminate D2 |]. now exists w. }
        apply (same_begins _ _ _ LV) in D3. destruct (plus_begins_or g c D3) as [K | K]; [right; eauto | now left].
    - intros K. apply defect_in_fix. fold r. rewrite cat_defect. right. right. destruct K as [K | (c & K1 & K2)]; [left; now apply Lg |]. right. exists c. split; [now apply (same_continues _ _ _ Lg) |].
      destruct K2 as [w K2]. exists w. apply alt_two. right. apply LV. exists (c :: w), []. rewrite app_nil_r. repeat split; auto. constructor. }
  rewrite D. unfold joinable. split.
  - intros K. split; [auto |]. intros c K1 K2. apply K. right. eauto.
  - intros [K1 K2] [K | (c & K3 & K4)]; [auto |]. exact (K2 c K3 K4).
Qed.

(** ** Productivity of the combinations *)
Lemma alt_productive g h : productive [] g -> productive [] h -> productive [] (GAlt [g; h]).
Proof. intros Hg Hh. apply productive_alt. split; [| cbn; auto]. destruct (productive_word _ _ Hg) as [w Hw]. exists w. apply alt_two. auto. Qed.
Lemma cat_productive g h : productive [] g -> productive [] h -> productive [] (GCat [g; h]).
Proof. intros Hg Hh. apply productive_cat. split; [| cbn; auto]. destruct (productive_word _ _ Hg) as [w Hw], (productive_word _ _ Hh) as [v Hv]. exists (w ++ v). apply cat_two. eauto. Qed.
Lemma eps_productive E : productive E GEps.
Proof. cbn. eauto. Qed.
Lemma star_productive g : closed_below 0 g -> productive [] g -> productive [] (gstar g).
Proof.
  intros Hc Hp. assert (K : lang_of [] (gstar g) []) by (apply star_lang; [exact Hc | constructor]). destruct (productive_word _ _ Hp) as [w Hw]. unfold gstar. cbn [productive]. split; [now exists [] |]. fold (gstar g).
  apply (proj2 (productive_alt [lang_of [] (gstar g)] [GEps; GCat [g; GVar 0]])). split; [exists []; rewrite alt_two; now left |]. cbn [productives]. split; [apply eps_productive |]. split; [| exact Logic.I].
  apply productive_cat. split; [exists (w ++ []); apply cat_two; exists w, []; split; [reflexivity |]; split; [now apply closed_lang | exact K] |]. cbn [productives]. split; [now apply productive_anywhere |]. split; [| exact Logic.I]. split; [now exists [] | exact Logic.I].
Qed.
Lemma plus_productive g : closed_below 0 g -> productive [] g -> productive [] (gplus g).
Proof.
  intros Hc Hp. destruct (productive_word _ _ Hp) as [w Hw]. assert (K : lang_of [] (gplus g) w) by (apply plus_lang; [exact Hc |]; exists w, []; rewrite app_nil_r; repeat split; [exact Hw | constructor]). unfold gplus. cbn [productive]. split; [now exists w |]. fold (gplus g).
  apply (proj2 (productive_cat [lang_of [] (gplus g)] [g; GAlt [GEps; GVar 0]])). split; [exists (w ++ []); apply cat_two; exists w, []; split; [reflexivity |]; split; [now apply closed_lang | rewrite alt_two; now left] |].
  cbn [productives]. split; [now apply productive_anywhere |]. split; [| exact Logic.I]. apply productive_alt. split; [exists []; rewrite alt_two; now left |]. cbn [productives]. split; [apply eps_productive |]. split; [| exact Logic.I]. split; [now exists w | exact Logic.I].
Qed.
