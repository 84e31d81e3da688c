(** * PropRust: theorems about the emitted Rust items (C94).

    Vocabulary: [emit_items] (the items printed, Rust), [rparses]/[rprint]/
    [rchar] (what a program made of them does: by name, Rust and SpecRust),
    [well_formed] (the rules of Rust they have to follow, SpecRust), [denotes]
    (the value that stands for a parse tree), and the vocabulary of PropGen. *)
From Coq Require Import String.
From Verif Require Import ShareFacts InferMore NameFacts PropGen Examples RustWf.
From Coq Require Import List.
Open Scope list_scope.

(** The expression is accepted, and [p] is emitted for it, with [alias] the
    type of the whole ([Ast], when [nm] is [None]). *)
Definition emits (cs : casing) (e : nexpr) (r : texpr) (b : bst) (root : nat) (nm : option name) (alias : rstr) (p : program) : Prop :=
  typecheck e = Ok r /\ generate cs r = Some (b, root) /\ emit_items nm root b = Some p
  /\ option_map (fun x => fst (snd x)) (emit_code nm root b) = Some alias.

Lemma emits_inv cs e r b root nm alias p : emits cs e r b root nm alias p ->
  compiles cs e r (data b) root /\ shaped (data b) /\
  exists order, NoDup order /\ (forall x, In x order <-> x < length (data b)) /\ p = flat_map (items_at (data b)) order ++ [IType alias (SAlias (name_of (data b) root))].
Proof.
  intros (E & Hg & Hp & Ha). split; [split; eauto |]. split; [eapply generate_shaped; eauto |].
  destruct (C31_emitted cs e r b root E Hg) as (order & t & Ho & Ht & Hnd & _ & Hall). exists order. split; [exact Hnd |]. split; [exact Hall |].
  unfold emit_items in Hp. unfold emit_code in *. destruct (emit_loop _ _ _ _) as [o |]; [| discriminate]. unfold name_of.
  destruct (nth_error (data b) root) as [en |]; [| discriminate]. injection Ho as -> <-.
  destruct nm as [n |]; cbn in Hp, Ha; injection Ha as <-; injection Hp as <-; reflexivity.
Qed.
(** Something is emitted, and without a name it is called [Ast]. *)
Theorem C94_emitted : forall cs e r b root nm, typecheck e = Ok r -> generate cs r = Some (b, root) ->
  exists alias p, emits cs e r b root nm alias p /\ (nm = None -> alias = lit "Ast").
Proof.
  intros cs e r b root nm E Hg. unfold emits, emit_items. destruct nm as [n |].
  - destruct (C32_alias cs e r b root n E Hg) as (order & t & k & _ & Ho). rewrite Ho. do 2 eexists. split; [split; [exact E |]; split; [exact Hg |]; split; reflexivity | discriminate].
  - destruct (C31_emitted cs e r b root E Hg) as (order & t & Ho & _). rewrite Ho. do 2 eexists. split; [split; [exact E |]; split; [exact Hg |]; split; reflexivity | reflexivity].
Qed.

(** ** The items are a program *)
(** The emitted items follow the rules of Rust if the names of the program do
    not end in a digit and are not the words the backend uses itself. *)
Theorem C94_well_formed : forall cs e r b root p, emits cs e r b root None (lit "Ast") p ->
  (forall n c, In n (t_names r) -> camel cs (name_text n) = Some c ->
     (forall u x, c = u ++ [x] -> ~ (48 <= x <= 57)%N) /\ ~ In c [lit "Lit"; lit "Cat"; lit "Alt"; lit "Fix"; lit "Branch"]) ->
  (forall n c, In n (t_names r) -> snake cs (name_text n) = Some c -> (forall u x, c = u ++ [x] -> ~ (48 <= x <= 57)%N) /\ c <> lit "part") ->
  well_formed p.
Proof.
  intros cs e r b root p H Hc Hk. destruct (emits_inv _ _ _ _ _ _ _ _ H) as (Hcomp & Hs & order & Hnd & Hall & ->). destruct H as (E & Hg & _).
  destruct (compiles_table _ _ _ _ _ Hcomp) as (m & _ & Hroot & Hgood & _ & _ & Hleft).
  apply emitted_wf with (f := tau m); auto.
  - apply (n_dist b). apply (generate_names cs r b root); [| exact Hg]. intros n c Hn Ec. destruct (Hc n c Hn Ec) as [H1 H2]. split; [exact H1 |].
    intros K. apply H2. cbn in *. tauto.
  - intros i Hi. destruct (C32_not_reserved cs e r (data b) root i _ Hcomp Hi) as (u & x & Ex & Hx).
    change (lit "Ast") with ([65%N; 115%N] ++ [116%N]) in Ex. apply app_inj_tail in Ex as [_ <-]. lia.
  - eapply (gen_parts cs r bst_default b root); [| intros [| k]; exact Logic.I | exact Hg]. intros n c Hn. split; intros Ec.
    + exact (Hk n c Hn Ec).
    + destruct (Hc n c Hn Ec) as [H1 H2]. split; [exact H1 |]. intros ->. apply H2. cbn. tauto.
  - intros i Hi. apply Hgood. exact Hi.
  - exact (C34_finite_size cs e r (data b) root Hcomp).
  - intros i Hi. apply Hgood. exact Hi.
Qed.
Print Assumptions C94_well_formed.
(** The same with a name for the whole, if it is not raw and the condition
    holds for it too. *)
Theorem C94_well_formed_alias : forall cs e r b root n alias p, emits cs e r b root (Some n) alias p ->
  (forall n c, In n (t_names r) -> camel cs (name_text n) = Some c ->
     (forall u x, c = u ++ [x] -> ~ (48 <= x <= 57)%N) /\ ~ In c [lit "Lit"; lit "Cat"; lit "Alt"; lit "Fix"; lit "Branch"]) ->
  (forall n c, In n (t_names r) -> snake cs (name_text n) = Some c -> (forall u x, c = u ++ [x] -> ~ (48 <= x <= 57)%N) /\ c <> lit "part") ->
  (forall u x, name_text n = u ++ [x] -> ~ (48 <= x <= 57)%N) -> ~ In (name_text n) [lit "Lit"; lit "Cat"; lit "Alt"; lit "Fix"] ->
  (forall i, n_content n = Spanned i -> id_raw i = false) ->
  well_formed p.
Proof.
  intros cs e r b root nn alias p H Hc Hk A1 A2 A3. destruct (emits_inv _ _ _ _ _ _ _ _ H) as (Hcomp & Hs & order & Hnd & Hall & ->). destruct H as (E & Hg & _ & Ha).
  destruct (compiles_table _ _ _ _ _ Hcomp) as (m & _ & Hroot & Hgood & _ & _ & Hleft).
  assert (Hc' : forall n c, In n (t_names r) -> camel cs (name_text n) = Some c ->
     (forall u d, c = u ++ [d] -> ~ (48 <= d <= 57)%N) /\ ~ In c [lit "Lit"; lit "Cat"; lit "Alt"; lit "Fix"]).
  { intros n c Hn Ec. destruct (Hc n c Hn Ec) as [H1 H2]. split; [exact H1 |]. intros K. apply H2. cbn in *. tauto. }
  apply emitted_wf with (f := tau m); auto.
  - apply (n_dist b). apply (generate_names cs r b root); [| exact Hg]. exact Hc'.
  - destruct (emit_code (Some nn) root b) as [[o [al t]] |] eqn:Ee; [| discriminate]. injection Ha as <-.
    exact (proj2 (C32_alias_fresh cs e r b root nn o al t E Hg Hc' A1 A2 A3 Ee)).
  - eapply (gen_parts cs r bst_default b root); [| intros [| k]; exact Logic.I | exact Hg]. intros n c Hn. split; intros Ec.
    + exact (Hk n c Hn Ec).
    + destruct (Hc n c Hn Ec) as [H1 H2]. split; [exact H1 |]. intros ->. apply H2. cbn. tauto.
  - intros i Hi. apply Hgood. exact Hi.
  - exact (C34_finite_size cs e r (data b) root Hcomp).
  - intros i Hi. apply Hgood. exact Hi.
Qed.
Print Assumptions C94_well_formed_alias.

(** ** A program that is accepted is the parser *)
(** The result of the items and the result of the table. *)
Definition agree (d : table) (i : nat) (x : res tree parse_error) (y : res rval parse_error) : Prop :=
  match x, y with
  | Ok t, Ok v => denotes d i t v
  | Err e, Err e' => e = e'
  | Panic, Panic => True
  | _, _ => False
  end.
Lemma sim_table cs e r b root nm alias p : emits cs e r b root nm alias p -> well_formed p ->
  forall n st, same (data b) root (take (data b) n root st) (rtake p (S n) (TnIdent alias) st).
Proof.
  intros H Hwf n st. destruct (emits_inv _ _ _ _ _ _ _ _ H) as (Hcomp & Hs & order & Hnd & Hall & Ep).
  destruct (compiles_table _ _ _ _ _ Hcomp) as (m & _ & Hroot & Hgood & _).
  assert (Hin : forall i it, In it (items_at (data b) i) -> In it p).
  { intros i it Hi. rewrite Ep. exact (in_p (data b) order root alias Hall i it Hi). }
  cbn [rtake]. assert (Ea : find_type p alias = Some (SAlias (name_of (data b) root))).
  { apply get_in; [apply (wf_types p Hwf) |]. apply (in_items sel_type p (IType alias (SAlias (name_of (data b) root)))); [| reflexivity].
    rewrite Ep. apply in_app_iff. right. left. reflexivity. }
  rewrite Ea. apply (rtake_same (data b) p Hs Hin Hwf (tau m)); [| exact Hroot]. intros i Hi. apply Hgood. exact Hi.
Qed.
Theorem C94_runs : forall cs e r b root nm alias p s x, emits cs e r b root nm alias p -> well_formed p ->
  parses (data b) root s x -> exists y, rparses p (TnIdent alias) s y /\ agree (data b) root x y.
Proof.
  intros cs e r b root nm alias p s x H Hwf [Hx [n Hn]].
  assert (G : forall k, n <= k -> agree (data b) root x (rparse_str p (S k) (TnIdent alias) s)).
  { intros k Hk. specialize (Hn k Hk). unfold rparse_str, parse_str_with, parse_with. unfold parse_str, parse_str_with, parse_with in Hn.
    destruct (sim_table _ _ _ _ _ _ _ _ H Hwf k (iw_new s)) as [S1 S2]. destruct (take (data b) k root (iw_new s)) as [a st]. destruct (rtake p (S k) (TnIdent alias) (iw_new s)) as [a' st']. cbn [fst snd] in S1, S2. subst st'.
    destruct a as [t | z | |], a' as [v | z' | |]; try contradiction; subst x; cbn; auto; try congruence.
    destruct (fst (iw_peek st)); cbn; auto. }
  assert (Hdet : forall y y', agree (data b) root x y -> agree (data b) root x y' -> y = y').
  { intros y y' Hy Hy'. unfold agree in *. destruct x as [t | | |], y as [v | | |], y' as [v' | | |]; try contradiction; try congruence.
    f_equal. exact (proj1 (denotes_fun (data b)) root t v Hy v' Hy'). }
  exists (rparse_str p (S n) (TnIdent alias) s). split; [| apply G; lia]. split.
  - specialize (G n (le_n n)). intros K. rewrite K in G. destruct x; contradiction.
  - exists (S n). intros [| k] Hk; [lia |]. apply Hdet; apply G; lia.
Qed.
Print Assumptions C94_runs.
Lemma rparses_fun p t s x y : rparses p t s x -> rparses p t s y -> x = y.
Proof. intros [_ [k Hk]] [_ [k' Hk']]. rewrite <- (Hk (Nat.max k k')), <- (Hk' (Nat.max k k')) by lia. reflexivity. Qed.
(** And back: what the items return is what the table returns. *)
Lemma runs_back cs e r b root nm alias p s y : emits cs e r b root nm alias p -> well_formed p ->
  rparses p (TnIdent alias) s y -> exists x, parses (data b) root s x /\ agree (data b) root x y.
Proof.
  intros H Hwf Hy. destruct (emits_inv _ _ _ _ _ _ _ _ H) as (Hcomp & _). destruct (C25_result _ _ _ _ _ s Hcomp) as [x Hx].
  destruct (C94_runs _ _ _ _ _ _ _ _ _ _ H Hwf Hx) as (y' & Hy' & Ha). exists x. split; [exact Hx |]. now rewrite (rparses_fun _ _ _ _ _ Hy Hy').
Qed.

(** The program decides the language of the grammar, reports the errors that
    the other theorems on generated parsers are about, and what it returns
    prints back as the text. *)
Theorem C94_decides : forall cs e r b root nm alias p g, emits cs e r b root nm alias p -> well_formed p -> gram_of e = Some g -> sharing_ok r ->
  forall s, (exists v, rparses p (TnIdent alias) s (Ok v)) <-> language g s.
Proof.
  intros cs e r b root nm alias p g H Hwf Hg Hsh s. destruct (emits_inv _ _ _ _ _ _ _ _ H) as (Hcomp & _).
  rewrite <- (C22_decides_language _ _ _ _ _ _ Hcomp Hg Hsh s). split.
  - intros [v Hv]. destruct (runs_back _ _ _ _ _ _ _ _ _ _ H Hwf Hv) as (x & Hx & Ha). destruct x; try contradiction. eauto.
  - intros [t Ht]. destruct (C94_runs _ _ _ _ _ _ _ _ _ _ H Hwf Ht) as (y & Hy & Ha). destruct y; try contradiction. eauto.
Qed.
Theorem C94_errors : forall cs e r b root nm alias p, emits cs e r b root nm alias p -> well_formed p ->
  forall s x, rparses p (TnIdent alias) s (Err x) <-> parses (data b) root s (Err x).
Proof.
  intros cs e r b root nm alias p H Hwf s x. split; intros K.
  - destruct (runs_back _ _ _ _ _ _ _ _ _ _ H Hwf K) as (y & Hy & Ha). destruct y; try contradiction. cbn in Ha. subst. exact Hy.
  - destruct (C94_runs _ _ _ _ _ _ _ _ _ _ H Hwf K) as (y & Hy & Ha). destruct y; try contradiction. cbn in Ha. subst. exact Hy.
Qed.
Lemma emits_in cs e r b root nm alias p : emits cs e r b root nm alias p -> shaped (data b) /\ forall i it, In it (items_at (data b) i) -> In it p.
Proof.
  intros H. destruct (emits_inv _ _ _ _ _ _ _ _ H) as (_ & Hs & order & _ & Hall & ->). split; [exact Hs |]. intros i it Hi. exact (in_p (data b) order root alias Hall i it Hi).
Qed.
Theorem C94_prints : forall cs e r b root nm alias p s v, emits cs e r b root nm alias p -> well_formed p ->
  rparses p (TnIdent alias) s (Ok v) -> rprint p v = Some s.
Proof.
  intros cs e r b root nm alias p s v H Hwf Hv. destruct (emits_in _ _ _ _ _ _ _ _ H) as [Hs Hin]. destruct (emits_inv _ _ _ _ _ _ _ _ H) as (Hcomp & _).
  destruct (runs_back _ _ _ _ _ _ _ _ _ _ H Hwf Hv) as (x & Hx & Ha). destruct x as [t | | |]; try contradiction. cbn in Ha.
  rewrite (proj1 (rprint_yield (data b) p Hs Hin Hwf) root t v Ha). f_equal. apply (parse_ok_iff _ _ _ _ _ Hcomp) in Hx as [_ Hy]. exact Hy.
Qed.
(** Values are parse trees: each parse tree has exactly one value, different
    trees have different values; the value prints as the text of the tree, and
    is what parsing that text returns. *)
Theorem C94_values : forall cs e r b root nm alias p g, emits cs e r b root nm alias p -> well_formed p -> gram_of e = Some g -> sharing_ok r ->
  forall t, parse_tree g t ->
  exists v, denotes (data b) root t v /\ rprint p v = Some (yield t) /\ rparses p (TnIdent alias) (yield t) (Ok v)
    /\ (forall v', denotes (data b) root t v' -> v' = v) /\ (forall t', denotes (data b) root t' v -> t' = t).
Proof.
  intros cs e r b root nm alias p g H Hwf Hg Hsh t Ht. destruct (emits_in _ _ _ _ _ _ _ _ H) as [Hs Hin]. destruct (emits_inv _ _ _ _ _ _ _ _ H) as (Hcomp & _).
  pose proof (C24_tree_recovered _ _ _ _ _ _ _ Hcomp Hg Hsh Ht) as Hp. destruct (C94_runs _ _ _ _ _ _ _ _ _ _ H Hwf Hp) as (y & Hy & Ha). destruct y as [v | | |]; try contradiction. cbn in Ha.
  exists v. split; [exact Ha |]. split; [exact (proj1 (rprint_yield (data b) p Hs Hin Hwf) root t v Ha) |]. split; [exact Hy |]. split.
  - intros v' K. exact (proj1 (denotes_fun (data b)) root t v' K v Ha).
  - intros t' K. exact (proj1 (denotes_inj (data b) p Hs Hin Hwf) root t' v K t Ha).
Qed.
(** [char::from] of a value of a generated type is the text it prints. *)
Theorem C94_char : forall cs e r b root nm alias p i t v, emits cs e r b root nm alias p -> well_formed p ->
  has_char (data b) i = true -> denotes (data b) i t v -> exists c, rchar p v = Some c /\ rprint p v = Some [c].
Proof.
  intros cs e r b root nm alias p i t v H Hwf Hc Hv. destruct (emits_in _ _ _ _ _ _ _ _ H) as [Hs Hin]. destruct (emits_inv _ _ _ _ _ _ _ _ H) as (Hcomp & _).
  destruct (compiles_table _ _ _ _ _ Hcomp) as (m & _ & _ & Hgood & _). assert (Hk : forall j, j < length (data b) -> char_ok (data b) j) by (intros j Hj; apply Hgood; exact Hj).
  destruct (to_char_yield (data b) Hk i t (proj1 (denotes_derives (data b)) i t v Hv) Hc) as (c & C1 & C2). exists c. split.
  - rewrite (rchar_same (data b) p Hs Hin Hwf i t v Hv Hc Hk). exact C1.
  - rewrite (proj1 (rprint_yield (data b) p Hs Hin Hwf) i t v Hv). now rewrite C2.
Qed.
Print Assumptions C94_decides.
Print Assumptions C94_errors.
Print Assumptions C94_prints.
Print Assumptions C94_values.
Print Assumptions C94_char.

(** ** Without the condition on names *)
(** [("a") . ("b") : lit] makes two types [Lit1]: rustc refuses the items. *)
Theorem C94_well_formed_refuted : exists r b root p, emits cs0 ex_clash_type r b root None (lit "Ast") p /\ ~ well_formed p.
Proof.
  do 4 eexists. split; [split; [vm_compute; reflexivity |]; split; [vm_compute; reflexivity |]; split; vm_compute; reflexivity |].
  intros H. pose proof (wf_types _ H) as K. cbn in K. repeat match goal with K : NoDup (_ :: _) |- _ => inversion K as [| ? ? ?X ?Y]; subst; clear K end. cbn in *. intuition congruence.
Qed.
(** And so it does when two fields, or two variants, have one name. *)
Theorem C94_parts_refuted :
  (exists r b root p, emits cs0 (cat2 (L "a") (ELit (Ann (Some (nlabel "part")) 0%N) (lit "b"))) r b root None (lit "Ast") p /\ ~ well_formed p)
  /\ (exists r b root p, emits cs0 (alt2 (L "a") (ELit (Ann (Some (nlabel "branch")) 0%N) (lit "b"))) r b root None (lit "Ast") p /\ ~ well_formed p).
Proof.
  split; (do 4 eexists; split; [split; [vm_compute; reflexivity |]; split; [vm_compute; reflexivity |]; split; vm_compute; reflexivity |]; intros H).
  - assert (K : NoDup [lit "part1"; lit "part1"]).
    { eapply (wf_shapes _ H (lit "Cat3") (SFields [(lit "part1", TnIdent (lit "Lit1")); (lit "part1", TnIdent (lit "Part1"))])). vm_compute. auto 10. }
    inversion K as [| ? ? K1 _]. apply K1. left. reflexivity.
  - assert (K : NoDup [lit "Branch1"; lit "Branch1"]).
    { eapply (wf_shapes _ H (lit "Alt3") (SEnum [(lit "Branch1", TnIdent (lit "Lit1")); (lit "Branch1", TnIdent (lit "Branch1"))])). vm_compute. auto 10. }
    inversion K as [| ? ? K1 _]. apply K1. left. reflexivity.
Qed.

(** ** An example *)
(** [!(/x/ "a" . x : rest | "b")]: the items, and what they do. *)
Definition ex_items : nexpr := fix1 "x" (alt2 (cat2 (L "a") (EVar (Ann (Some (nlabel "rest")) 0%N) 0)) (L "b")).
Definition ex_program : program :=
  [IType (lit "Fix1") (SAlias (TnIdent (lit "Alt6")));
   IType (lit "Alt6") (SEnum [(lit "Branch1", TnIdent (lit "Cat4")); (lit "Branch2", TnIdent (lit "Lit5"))]);
   IDisplay (lit "Alt6") (FMatch [lit "Branch1"; lit "Branch2"]);
   IParse (lit "Alt6") (TMatch [(lit "a", lit "Branch1"); (lit "b", lit "Branch2")] (OrError (lit "ab")));
   IType (lit "Cat4") (SFields [(lit "part1", TnIdent (lit "Lit2")); (lit "rest1", TnBox (TnIdent (lit "Fix1")))]);
   IDisplay (lit "Cat4") (FMembers [MName (lit "part1"); MName (lit "rest1")]);
   IParse (lit "Cat4") (TLets [lit "part0"; lit "part1"] (InFields [(lit "part1", lit "part0"); (lit "rest1", lit "part1")]));
   IType (lit "Lit5") SUnit; IDisplay (lit "Lit5") (FWrite (lit "b")); IParse (lit "Lit5") (TConsume (lit "b") (lit "Lit5")); IChar (lit "Lit5") (KConst (chr "b"));
   IType (lit "Lit2") SUnit; IDisplay (lit "Lit2") (FWrite (lit "a")); IParse (lit "Lit2") (TConsume (lit "a") (lit "Lit2")); IChar (lit "Lit2") (KConst (chr "a"));
   IType (lit "Ast") (SAlias (TnIdent (lit "Fix1")))].
Lemma no_digit_word (c : rstr) : Forall (fun x => ~ (48 <= x <= 57)%N) c -> forall u x, c = u ++ [x] -> ~ (48 <= x <= 57)%N.
Proof. intros H u x ->. apply Forall_app in H as [_ H]. now inversion H. Qed.
Example C94_ex_items : exists r b root, emits cs0 ex_items r b root None (lit "Ast") ex_program /\ sharing_ok r /\ well_formed ex_program.
Proof.
  assert (H : exists r b root, emits cs0 ex_items r b root None (lit "Ast") ex_program /\ sharing_okb r = true /\ t_names r = [nlabel "rest"]).
  { do 3 eexists. split; [split; [vm_compute; reflexivity |]; split; [vm_compute; reflexivity |]; split; vm_compute; reflexivity |]. split; vm_compute; reflexivity. }
  destruct H as (r & b & root & H & Hb & Hn). exists r, b, root. split; [exact H |]. split; [now apply sharing_okb_ok |].
  apply (C94_well_formed _ _ _ _ _ _ H); rewrite Hn.
  - intros n c [<- | []] Ec. cbn in Ec. injection Ec as <-. split; [apply no_digit_word; repeat constructor; lia |]. cbn. intuition discriminate.
  - intros n c [<- | []] Ec. cbn in Ec. injection Ec as <-. split; [apply no_digit_word; repeat constructor; lia | discriminate].
Qed.
Example C94_ex_run :
  rparse_str ex_program 20 (TnIdent (lit "Ast")) (lit "ab") = Ok (VVariant (lit "Alt6") (lit "Branch1")
    (VStruct (lit "Cat4") [(MName (lit "part1"), VStruct (lit "Lit2") []);
       (MName (lit "rest1"), VBox (VVariant (lit "Alt6") (lit "Branch2") (VStruct (lit "Lit5") [])))]))
  /\ rparse_str ex_program 20 (TnIdent (lit "Ast")) (lit "ac") = Err (PTake (BadBranch (LC 1 1) (chr "c") (lit "ab"))).
Proof. split; vm_compute; reflexivity. Qed.
