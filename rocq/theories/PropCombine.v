(** * C105: when accepted grammars can be combined. *)
From Coq Require Import String.
From Verif Require Import SpecCombine SpecDefect CombineFacts DefectFacts ExactFacts PropDefect Examples BetaFacts StepFacts ReduceFacts ReduceMore PropReduce InferMore Source Main.
From Coq Require Import List Lia PeanoNat.
Open Scope list_scope.

(** The combinations, as the lets of tests/full/nibble/regex.nb reduce to them:
    [_ | e], [!(/r/ _ | e . r)], [!(/r/ e . (_ | r))]; names and positions are
    arbitrary. *)
Definition eopt (a b : ann) (p : span) (e : nexpr) : nexpr := EAlt a (EEps b) [(p, e)].
Definition estar (a1 a2 a3 a4 a5 a6 : ann) (p q : span) (ns : name) (e : nexpr) : nexpr :=
  EFix a1 (ELam a2 [ns] (EAlt a3 (EEps a4) [(p, ECat a5 e [(q, EVar a6 0)])])).
Definition eplus (a1 a2 a3 a4 a5 a6 : ann) (p q : span) (ns : name) (e : nexpr) : nexpr :=
  EFix a1 (ELam a2 [ns] (ECat a3 e [(q, EAlt a4 (EEps a5) [(p, EVar a6 0)])])).
Definition accepted (e : nexpr) : Prop := exists r, typecheck e = Ok r.
(** An accepted expression, its grammar, and every part of that has a word. *)
Definition sound_part (e : nexpr) (g : gram) : Prop := accepted e /\ gram_of e = Some g /\ productive [] g.

Lemma part_closed e g : accepted e -> gram_of e = Some g -> closed_below 0 g /\ ~ defect [] g.
Proof.
  intros [r E] Hg. split; [| eapply C81_accepted_has_no_defect; eauto]. destruct (typecheck_typed e r E) as (g' & s & Hg' & _ & Ht & _). rewrite Hg in Hg'. injection Hg' as <-. exact (proj1 typed_closed _ _ _ Ht).
Qed.
Lemma gram_cat a e p f g h : gram_of e = Some g -> gram_of f = Some h -> gram_of (ECat a e [(p, f)]) = Some (GCat [g; h]).
Proof. intros Hg Hh. cbn. now rewrite Hg, Hh. Qed.
Lemma gram_alt a e p f g h : gram_of e = Some g -> gram_of f = Some h -> gram_of (EAlt a e [(p, f)]) = Some (GAlt [g; h]).
Proof. intros Hg Hh. cbn. now rewrite Hg, Hh. Qed.

Theorem C105_alternation : forall a p e f g h, sound_part e g -> sound_part f h ->
  (accepted (EAlt a e [(p, f)]) <-> distinguishable (language g) (language h)) /\
  exists k, gram_of (EAlt a e [(p, f)]) = Some k /\ productive [] k /\ forall w, language k w <-> language g w \/ language h w.
Proof.
  intros a p e f g h (Ae & Hg & Pg) (Af & Hh & Ph). pose proof (gram_alt a e p f g h Hg Hh) as K. pose proof (alt_productive g h Pg Ph) as P. destruct (part_closed _ _ Ae Hg) as [_ Dg], (part_closed _ _ Af Hh) as [_ Dh].
  split; [| exists (GAlt [g; h]); split; [exact K | split; [exact P | intros w; apply alt_two]]]. unfold accepted. rewrite (C81_exactly _ _ K P), alt_defect. unfold distinguishable, language. change (langs []) with (@nil lang). split.
  - intros N. split; [intros H; apply N; auto |]. intros c H1 H2. apply N. right. right. right. eauto.
  - intros [N1 N2] [D | [D | [D | (c & H1 & H2)]]]; auto. exact (N2 c H1 H2).
Qed.
Theorem C105_concatenation : forall a p e f g h, sound_part e g -> sound_part f h ->
  (accepted (ECat a e [(p, f)]) <-> joinable (language g) (language h)) /\
  exists k, gram_of (ECat a e [(p, f)]) = Some k /\ productive [] k /\ forall w, language k w <-> lang_cat (language g) (language h) w.
Proof.
  intros a p e f g h (Ae & Hg & Pg) (Af & Hh & Ph). pose proof (gram_cat a e p f g h Hg Hh) as K. pose proof (cat_productive g h Pg Ph) as P. destruct (part_closed _ _ Ae Hg) as [_ Dg], (part_closed _ _ Af Hh) as [_ Dh].
  split; [| exists (GCat [g; h]); split; [exact K | split; [exact P | intros w; apply cat_two]]]. unfold accepted. rewrite (C81_exactly _ _ K P), cat_defect. unfold joinable, language. change (langs []) with (@nil lang). change (behind []) with (@nil (bool * lang)). split.
  - intros N. split; [intros H; apply N; auto |]. intros c H1 H2. apply N. right. right. right. eauto.
  - intros [N1 N2] [D | [D | [D | (c & H1 & H2)]]]; auto. exact (N2 c H1 H2).
Qed.
Theorem C105_optional : forall a b p e g, sound_part e g ->
  (accepted (eopt a b p e) <-> ~ language g []) /\
  exists k, gram_of (eopt a b p e) = Some k /\ productive [] k /\ forall w, language k w <-> w = [] \/ language g w.
Proof.
  intros a b p e g (Ae & Hg & Pg). unfold eopt. pose proof (gram_alt a (EEps b) p e GEps g eq_refl Hg) as K. pose proof (alt_productive GEps g (eps_productive []) Pg) as P. destruct (part_closed _ _ Ae Hg) as [_ Dg].
  split; [| exists (GAlt [GEps; g]); split; [exact K | split; [exact P | intros w; apply alt_two]]]. unfold accepted. rewrite (C81_exactly _ _ K P), alt_defect. change (langs []) with (@nil lang). split.
  - intros N H. apply N. right. right. left. split; [reflexivity | exact H].
  - intros N [D | [D | [[_ D] | (c & [w H1] & _)]]]; auto; [inversion D | discriminate H1].
Qed.
(** Repetition needs what joining the grammar to itself needs. *)
Theorem C105_star : forall a1 a2 a3 a4 a5 a6 p q n e g, sound_part e g ->
  (accepted (estar a1 a2 a3 a4 a5 a6 p q n e) <-> joinable (language g) (language g)) /\
  exists k, gram_of (estar a1 a2 a3 a4 a5 a6 p q n e) = Some k /\ productive [] k /\ forall w, language k w <-> many (language g) w.
Proof.
  intros a1 a2 a3 a4 a5 a6 p q n e g (Ae & Hg & Pg). assert (K : gram_of (estar a1 a2 a3 a4 a5 a6 p q n e) = Some (gstar g)) by (cbn; now rewrite Hg). destruct (part_closed _ _ Ae Hg) as [Hc Dg]. pose proof (star_productive g Hc Pg) as P.
  split; [| exists (gstar g); split; [exact K | split; [exact P | intros w; now apply star_lang]]]. unfold accepted. rewrite (C81_exactly _ _ K P). now apply star_defect.
Qed.
Theorem C105_plus : forall a1 a2 a3 a4 a5 a6 p q n e g, sound_part e g ->
  (accepted (eplus a1 a2 a3 a4 a5 a6 p q n e) <-> joinable (language g) (language g)) /\
  exists k, gram_of (eplus a1 a2 a3 a4 a5 a6 p q n e) = Some k /\ productive [] k /\ forall w, language k w <-> lang_cat (language g) (many (language g)) w.
Proof.
  intros a1 a2 a3 a4 a5 a6 p q n e g (Ae & Hg & Pg). assert (K : gram_of (eplus a1 a2 a3 a4 a5 a6 p q n e) = Some (gplus g)) by (cbn; now rewrite Hg). destruct (part_closed _ _ Ae Hg) as [Hc Dg]. pose proof (plus_productive g Hc Pg) as P.
  split; [| exists (gplus g); split; [exact K | split; [exact P | intros w; now apply plus_lang]]]. unfold accepted. rewrite (C81_exactly _ _ K P). now apply plus_defect.
Qed.
Lemma defect_inside r g : closed_below 0 g -> defect [] g -> defect r g.
Proof. intros Hc D. apply (defect_below [] g D 0); [| exact Hc]. intros i Hi. inversion Hi. Qed.
Lemma repeated_part x y k K : gram_of y = Some k -> closed_below 0 k -> productive [] k -> gram_of x = Some K -> (K = gstar k \/ K = gplus k) -> accepted x -> accepted y.
Proof.
  intros Hy Hc Hp Hx HK [r E]. apply (C81_exactly _ _ Hy Hp). intros D. apply (C81_accepted_has_no_defect _ _ _ E Hx). destruct HK as [-> | ->]; apply defect_in_fix.
  - apply alt_defect. right. left. apply cat_defect. left. now apply defect_inside.
  - apply cat_defect. left. now apply defect_inside.
Qed.
(** A repetition cannot be repeated: with a second level there is no telling
    where one group of words ends. *)
Theorem C105_no_double : forall a1 a2 a3 a4 a5 a6 p q n b1 b2 b3 b4 b5 b6 p' q' n' e g, sound_part e g ->
  let star x := estar a1 a2 a3 a4 a5 a6 p q n x in let plus x := eplus a1 a2 a3 a4 a5 a6 p q n x in
  let star' x := estar b1 b2 b3 b4 b5 b6 p' q' n' x in let plus' x := eplus b1 b2 b3 b4 b5 b6 p' q' n' x in
  ~ accepted (star' (star e)) /\ ~ accepted (plus' (star e)) /\ ~ accepted (star' (plus e)) /\ ~ accepted (plus' (plus e)).
Proof.
  intros a1 a2 a3 a4 a5 a6 p q n b1 b2 b3 b4 b5 b6 p' q' n' e g He star plus star' plus'. pose proof He as (Ae & Hg & Pg).
  pose proof (C105_star a1 a2 a3 a4 a5 a6 p q n e g He) as (S1 & ks & S2 & S3 & S4). pose proof (C105_plus a1 a2 a3 a4 a5 a6 p q n e g He) as (P1 & kp & P2 & P3 & P4).
  destruct (part_closed _ _ Ae Hg) as [Hc _]. assert (Eks : ks = gstar g) by (cbn in S2; rewrite Hg in S2; injection S2 as <-; reflexivity). assert (Ekp : kp = gplus g) by (cbn in P2; rewrite Hg in P2; injection P2 as <-; reflexivity).
  assert (I : forall x y k, gram_of y = Some k -> closed_below 0 k -> productive [] k -> (x = star' y \/ x = plus' y) -> accepted x -> accepted y).
  { intros x y k Hy Hck Hpk [-> | ->]; [apply (repeated_part _ _ k (gstar k)) | apply (repeated_part _ _ k (gplus k))]; auto; cbn; now rewrite Hy. }
  assert (Cs : closed_below 0 ks). { rewrite Eks. cbn. repeat split; auto. apply (closed_more g 0 1); auto. }
  assert (Cp : closed_below 0 kp). { rewrite Ekp. cbn. repeat split; auto. apply (closed_more g 0 1); auto. }
  assert (Ns : ~ joinable (language ks) (language ks)) by (intros [K _]; apply K, S4; constructor).
  assert (Np : accepted (plus e) -> ~ joinable (language kp) (language kp)).
  { intros A [_ K]. apply P1 in A as [A _]. destruct (ExactFacts.productive_word _ _ Pg) as [[| c w] Hw]; [now elim A |].
    apply (K c); [exists (c :: w), w; split; apply P4; exists (c :: w) | exists w; apply P4; exists (c :: w), []]; [exists []; rewrite app_nil_r | exists (c :: w) | rewrite app_nil_r]; repeat split; auto; try constructor.
    rewrite <- (app_nil_r (c :: w)). apply (many_more (language g)); [exact Hw | constructor]. }
  repeat split; intros A.
  - assert (B : accepted (star e)) by (exact (I _ _ ks S2 Cs S3 (or_introl eq_refl) A)). apply (C105_star b1 b2 b3 b4 b5 b6 p' q' n' (star e) ks) in A; [auto | repeat split; auto].
  - assert (B : accepted (star e)) by (exact (I _ _ ks S2 Cs S3 (or_intror eq_refl) A)). apply (C105_plus b1 b2 b3 b4 b5 b6 p' q' n' (star e) ks) in A; [auto | repeat split; auto].
  - assert (B : accepted (plus e)) by (exact (I _ _ kp P2 Cp P3 (or_introl eq_refl) A)). apply (C105_star b1 b2 b3 b4 b5 b6 p' q' n' (plus e) kp) in A; [now apply (Np B) | repeat split; auto].
  - assert (B : accepted (plus e)) by (exact (I _ _ kp P2 Cp P3 (or_intror eq_refl) A)). apply (C105_plus b1 b2 b3 b4 b5 b6 p' q' n' (plus e) kp) in A; [now apply (Np B) | repeat split; auto].
Qed.

(** ** The same of programs *)
(** The definitions of tests/full/nibble/regex.nb, as functions:
    [let opt x = _ | x; let plus x = !(/plus/ x . opt plus);
     let star x = !(/star/ opt (x . star)); match goal;]. *)
Definition lopt : lexpr := LLam 1 (LAlt [LEps; LVar 0]).
Definition lplus : lexpr := LLam 1 (LFix (LLam 1 (LCat [LVar 1; LCall (LVar 2) [LVar 0]]))).
Definition lstar : lexpr := LLam 1 (LFix (LLam 1 (LCall (LVar 3) [LCat [LVar 1; LVar 0]]))).
Definition library (goal : lexpr) : lexpr := LLet lopt (LLet lplus (LLet lstar goal)).

Lemma lren_closed e : forall n r, scoped n e -> (forall i, i < n -> r i = i) -> lren r e = e.
Proof.
  induction e as [| s | l IH | l IH | e IH | i | f l IHf IH | k e IH | x b IHx IHb] using lexpr_ind'; intros n r Hs Hr; cbn [lren scoped] in *; try reflexivity.
  - f_equal. apply scoped_list in Hs. rewrite Forall_forall in *. rewrite <- (map_id l) at 2. apply map_ext_in. intros x Hx. eapply IH; eauto.
  - f_equal. apply scoped_list in Hs. rewrite Forall_forall in *. rewrite <- (map_id l) at 2. apply map_ext_in. intros x Hx. eapply IH; eauto.
  - f_equal. eauto.
  - f_equal. auto.
  - destruct Hs as [Hf Hs]. f_equal; [eauto |]. apply scoped_list in Hs. rewrite Forall_forall in *. rewrite <- (map_id l) at 2. apply map_ext_in. intros x Hx. eapply IH; eauto.
  - f_equal. eapply IH; [exact Hs |]. intros i Hi. unfold upr. destruct (Nat.ltb_spec i k); [reflexivity |]. rewrite Hr; lia.
  - destruct Hs as [Hx Hb]. f_equal; [eauto |]. eapply IHb; [exact Hb |]. intros i Hi. unfold upr. destruct (Nat.ltb_spec i 1); [reflexivity |]. rewrite Hr; lia.
Qed.
Lemma lsub_closed e : forall n s, scoped n e -> (forall i, i < n -> s i = LVar i) -> lsub s e = e.
Proof.
  induction e as [| w | l IH | l IH | e IH | i | f l IHf IH | k e IH | x b IHx IHb] using lexpr_ind'; intros n s Hs Hr; cbn [lsub scoped] in *; try reflexivity.
  - f_equal. apply scoped_list in Hs. rewrite Forall_forall in *. rewrite <- (map_id l) at 2. apply map_ext_in. intros x Hx. eapply IH; eauto.
  - f_equal. apply scoped_list in Hs. rewrite Forall_forall in *. rewrite <- (map_id l) at 2. apply map_ext_in. intros x Hx. eapply IH; eauto.
  - f_equal. eauto.
  - auto.
  - destruct Hs as [Hf Hs]. f_equal; [eauto |]. apply scoped_list in Hs. rewrite Forall_forall in *. rewrite <- (map_id l) at 2. apply map_ext_in. intros x Hx. eapply IH; eauto.
  - f_equal. eapply IH; [exact Hs |]. intros i Hi. unfold ups. destruct (Nat.ltb_spec i k); [reflexivity |]. rewrite Hr by lia. cbn [lren]. f_equal. lia.
  - destruct Hs as [Hx Hb]. f_equal; [eauto |]. eapply IHb; [exact Hb |]. intros i Hi. unfold ups. destruct (Nat.ltb_spec i 1); [reflexivity |]. rewrite Hr by lia. cbn [lren]. f_equal. lia.
Qed.
Lemma library_goal k e : scoped 0 e -> forall v, evals (LCall (nth k [LLam 1 (LFix (LLam 1 (LCall lopt [LCat [LVar 1; LVar 0]]))); LLam 1 (LFix (LLam 1 (LCat [LVar 1; LCall lopt [LVar 0]]))); lopt] (LVar 0)) [e]) v -> k < 3 ->
  evals (library (LCall (LVar k) [e])) v.
Proof.
  intros He v Hv Hk. assert (S : forall s, lsub s e = e) by (intros s; apply (lsub_closed e 0); [exact He | intros i Hi; lia]). assert (R : forall r, lren r e = e) by (intros r; apply (lren_closed e 0); [exact He | intros i Hi; lia]).
  unfold library. apply ev_let. cbn [lsub lopt lplus lstar map]. rewrite S. apply ev_let. cbn [lsub map]. rewrite S. apply ev_let. cbn [lsub map]. rewrite S.
  destruct k as [| [| [| k]]]; [exact Hv | exact Hv | exact Hv | lia].
Qed.
Lemma call_opt e w : evals e w -> evals (LCall lopt [e]) (LAlt [LEps; w]).
Proof. intros H. eapply ev_call; [apply ev_lam | reflexivity |]. cbn. apply ev_alt. repeat constructor. exact H. Qed.
Lemma call_star e w : scoped 0 e -> evals e w -> evals (LCall (LLam 1 (LFix (LLam 1 (LCall lopt [LCat [LVar 1; LVar 0]])))) [e]) (LFix (LLam 1 (LAlt [LEps; LCat [w; LVar 0]]))).
Proof.
  intros He H. eapply ev_call; [apply ev_lam | reflexivity |]. cbn [lsub map]. change (lsub (ups 1 (inst [e])) lopt) with lopt. change (ups 1 (inst [e]) 0) with (LVar 0). change (ups 1 (inst [e]) 1) with (lren (Nat.add 1) e).
  rewrite (lren_closed e 0) by (auto; intros i Hi; lia). eapply ev_fix; [apply ev_lam |]. apply call_opt. apply ev_cat. repeat constructor. exact H.
Qed.
Lemma call_plus e w : scoped 0 e -> evals e w -> evals (LCall (LLam 1 (LFix (LLam 1 (LCat [LVar 1; LCall lopt [LVar 0]])))) [e]) (LFix (LLam 1 (LCat [w; LAlt [LEps; LVar 0]]))).
Proof.
  intros He H. eapply ev_call; [apply ev_lam | reflexivity |]. cbn [lsub map]. change (lsub (ups 1 (inst [e])) lopt) with lopt. change (ups 1 (inst [e]) 0) with (LVar 0). change (ups 1 (inst [e]) 1) with (lren (Nat.add 1) e).
  rewrite (lren_closed e 0) by (auto; intros i Hi; lia). eapply ev_fix; [apply ev_lam |]. apply ev_cat. constructor; [exact H |]. constructor; [| constructor]. apply call_opt. constructor.
Qed.
Lemma same_accepted x y g : gram_of x = Some g -> gram_of y = Some g -> accepted x <-> accepted y.
Proof. intros Hx Hy. unfold accepted. rewrite !InferMore.typecheck_accepts. rewrite Hx, Hy. reflexivity. Qed.
(** A program that calls one of the definitions on a closed expression [e],
    whose own grammar is accepted. *)
Theorem C105_program : forall k P e n v g, k < 3 -> erase P = library (LCall (LVar k) [erase e]) -> scoped 0 (erase e) -> reduce n e = Ok v -> sound_part v g ->
  exists m v' g', reduce m P = Ok v' /\ gram_of v' = Some g' /\
    (accepted v' <-> match k with 2 => ~ language g [] | _ => joinable (language g) (language g) end) /\
    forall w, language g' w <-> match k with 2 => w = [] \/ language g w | 1 => lang_cat (language g) (many (language g)) w | _ => many (language g) w end.
Proof.
  intros k P e n v g Hk HP Hs Hr Hv. pose proof Hv as (Av & Hg & Pg). assert (Hev : evals (erase e) (erase v)) by (apply C40_exact; eauto). rewrite gram_of_lgram in Hg.
  assert (Q : forall u g', evals (library (LCall (LVar k) [erase e])) u -> lgram u = Some g' -> exists m v', reduce m P = Ok v' /\ gram_of v' = Some g').
  { intros u g' Hu Hl. rewrite <- HP in Hu. apply C40_exact in Hu as (m & v' & Hm & <-). exists m, v'. split; [exact Hm |]. now rewrite gram_of_lgram. }
  assert (J : gram_of v = Some g) by now rewrite gram_of_lgram.
  destruct k as [| [| [| k]]]; [| | | lia].
  - destruct (Q (LFix (LLam 1 (LAlt [LEps; LCat [erase v; LVar 0]]))) (gstar g)) as (m & v' & Hm & Hg'); [apply library_goal; [exact Hs | cbn [nth]; now apply call_star | lia] | cbn; now rewrite Hg |].
    exists m, v', (gstar g). split; [exact Hm |]. split; [exact Hg' |]. destruct (C105_star a0 a0 a0 a0 a0 a0 0%N 0%N (nvar "r") v g Hv) as (A & k' & K1 & _ & K3). assert (k' = gstar g) as -> by (cbn in K1; rewrite J in K1; injection K1 as <-; reflexivity). split; [| exact K3]. rewrite <- A. now apply (same_accepted _ _ (gstar g)).
  - destruct (Q (LFix (LLam 1 (LCat [erase v; LAlt [LEps; LVar 0]]))) (gplus g)) as (m & v' & Hm & Hg'); [apply library_goal; [exact Hs | cbn [nth]; now apply call_plus | lia] | cbn; now rewrite Hg |].
    exists m, v', (gplus g). split; [exact Hm |]. split; [exact Hg' |]. destruct (C105_plus a0 a0 a0 a0 a0 a0 0%N 0%N (nvar "r") v g Hv) as (A & k' & K1 & _ & K3). assert (k' = gplus g) as -> by (cbn in K1; rewrite J in K1; injection K1 as <-; reflexivity). split; [| exact K3]. rewrite <- A. now apply (same_accepted _ _ (gplus g)).
  - destruct (Q (LAlt [LEps; erase v]) (GAlt [GEps; g])) as (m & v' & Hm & Hg'); [apply library_goal; [exact Hs | cbn [nth]; now apply call_opt | lia] | cbn; now rewrite Hg |].
    exists m, v', (GAlt [GEps; g]). split; [exact Hm |]. split; [exact Hg' |]. destruct (C105_optional a0 a0 0%N v g Hv) as (A & k' & K1 & _ & K3). assert (k' = GAlt [GEps; g]) as -> by (cbn in K1; rewrite J in K1; injection K1 as <-; reflexivity). split; [| exact K3]. rewrite <- A. now apply (same_accepted _ _ (GAlt [GEps; g])).
Qed.

(** ** Examples *)
(** ["a" | "bc"] can be repeated; ["a" | "bc"] and ["b"] cannot be alternatives. *)
Definition ex_word : nexpr := alt2 (L "a") (L "bc").
Example C105_ex_sound : sound_part ex_word (GAlt [GLit (lit "a"); GLit (lit "bc")]) /\ sound_part (L "b") (GLit (lit "b")).
Proof.
  split; (split; [eexists; vm_compute; reflexivity |]; split; [reflexivity |]).
  - apply alt_productive; cbn; eauto.
  - cbn. eauto.
Qed.
Example C105_ex_star : joinable (language (GAlt [GLit (lit "a"); GLit (lit "bc")])) (language (GAlt [GLit (lit "a"); GLit (lit "bc")])).
Proof.
  split; [intros [K | [K | []]]; discriminate K |]. intros c (u & v & [-> | [-> | []]] & [E | [E | []]]) _; discriminate E.
Qed.
Example C105_ex_clash : ~ distinguishable (language (GAlt [GLit (lit "a"); GLit (lit "bc")])) (language (GLit (lit "b"))).
Proof. intros [_ K]. apply (K (chr "b")); [exists (lit "c"); right; left; reflexivity | exists []; reflexivity]. Qed.
(** What the front end makes of such a program: the library and the call. *)
Definition ex_source : string := "let opt x = _ | x;
let plus x = !(/plus/ x . opt plus);
let star x = !(/star/ opt (x . star));

match star (""a"" | ""bc"");
"%string.
Example C105_ex_program : exists s P, parse_program (tokens_of ex_source) = Some s /\ convert_program (fun _ _ => None) s = Ok P
  /\ erase P = library (LCall (LVar 0) [erase ex_word]) /\ scoped 0 (erase ex_word).
Proof. do 2 eexists. split; [vm_compute; reflexivity |]. split; [vm_compute; reflexivity |]. split; [reflexivity | cbn; auto]. Qed.
Print Assumptions C105_alternation.
Print Assumptions C105_concatenation.
Print Assumptions C105_optional.
Print Assumptions C105_star.
Print Assumptions C105_plus.
Print Assumptions C105_no_double.
Print Assumptions C105_program.
