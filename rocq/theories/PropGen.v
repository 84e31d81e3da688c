(** * PropGen: theorems about the generated parsers.

    Vocabulary of the statements: [typecheck] (type inference in the empty
    context), [generate] (code generation: the table of types and the root),
    [take]/[parse_str]/[to_string]/[to_char] (what the generated code does,
    GenSem), [gram_of]/[language]/[parse_tree]/[yield] (SpecLang),
    [derives] (values of a generated type, SpecTable), [sharing_ok]
    (SpecSharing). *)
From Coq Require Import String.
From Verif Require Import ShareFacts InferMore Examples.
From Coq Require Import List.
Open Scope list_scope.

(** The expression is accepted and code is generated for it. *)
Definition compiles (cs : casing) (e : nexpr) (r : texpr) (tab : table) (root : nat) : Prop :=
  typecheck e = Ok r /\ exists b, generate cs r = Some (b, root) /\ tab = data b.

(** The result of [parse_str], for an execution that is given enough steps. *)
Definition parses (tab : table) (root : nat) (s : rstr) (x : res tree parse_error) : Prop :=
  x <> OutOfFuel /\ exists fuel, forall fuel', fuel <= fuel' -> parse_str tab fuel' root s = x.

(** A simple conversion of names, which agrees with heck on lower-case words. *)
Definition upper (s : rstr) : rstr := match s with c :: s' => (if ((97 <=? c) && (c <=? 122))%N then (c - 32)%N else c) :: s' | [] => [] end.
Definition word (s : rstr) : option rstr := match s with [] => None | _ => Some s end.
Definition cs0 : casing := Casing (fun s => option_map upper (word s)) word.

Lemma compiles_table cs e r tab root : compiles cs e r tab root ->
  exists m, length m = length tab /\ root < length tab /\ (forall id, id < length tab -> good tab m id)
    /\ tau m root = get_type r /\ (forall x, x < length tab -> reach tab root x) /\ left_wf tab.
Proof.
  intros [E (b & Hg & ->)]. destruct (generated_table cs r b root (typecheck_wt _ _ E) Hg) as (m & H1 & H2 & H3 & H4 & _ & H6 & H7).
  exists m. auto 10.
Qed.
Lemma compiles_flat cs e r tab root : compiles cs e r tab root ->
  exists f, (forall id, id < length tab -> flat_ok tab f id) /\ f root = get_type r.
Proof.
  intros H. destruct (compiles_table _ _ _ _ _ H) as (m & _ & _ & Hg & Hr & _). exists (tau m). split; [intros id Hid; apply Hg; exact Hid|exact Hr].
Qed.
Lemma compiles_trees cs e r tab root g : compiles cs e r tab root -> sharing_ok r -> gram_of e = Some g ->
  forall t, parse_tree g t <-> derives tab root t.
Proof.
  intros [E (b & Hg & ->)] Hs Hgr. destruct (typecheck_typed e r E) as (g' & s & Hg' & Hr & _). rewrite Hgr in Hg'. injection Hg' as <-. subst g.
  exact (generated_trees cs r b root (typecheck_wt _ _ E) Hs Hg).
Qed.

(** ** Runs *)
Lemma parse_take tab fuel root s : parse_str tab fuel root s = match take tab fuel root (iw_new s) with
  | (Ok v, st) => match remaining st with [] => Ok v | _ => Err (InputContinues (iw_pos st)) end
  | (Err e, _) => Err (PTake e) | (Panic, _) => Panic | (OutOfFuel, _) => OutOfFuel end.
Proof.
  unfold parse_str, parse_str_with, parse_with. destruct (take tab fuel root (iw_new s)) as [[v|e| |] st]; auto.
  destruct (peek_spec st) as (P1 & P2 & P3). rewrite P1. destruct (remaining st); [reflexivity|]. cbn. unfold iw_pos in *. congruence.
Qed.
Lemma parse_mono tab fuel fuel' root s : fuel <= fuel' -> parse_str tab fuel root s <> OutOfFuel -> parse_str tab fuel' root s = parse_str tab fuel root s.
Proof.
  intros Hle Hn. rewrite !parse_take in *. rewrite (take_mono tab fuel fuel'); auto.
  unfold not_out. intros E. apply Hn. destruct (take tab fuel root (iw_new s)) as [x st]. cbn in E. subst x. reflexivity.
Qed.
Lemma parses_run tab fuel root s : parse_str tab fuel root s <> OutOfFuel -> parses tab root s (parse_str tab fuel root s).
Proof. intros H. split; [exact H|]. exists fuel. intros f Hf. apply parse_mono; assumption. Qed.
Lemma parses_fun tab root s x y : parses tab root s x -> parses tab root s y -> x = y.
Proof. intros [_ [f Hf]] [_ [f' Hf']]. rewrite <- (Hf (Nat.max f f')), <- (Hf' (Nat.max f f')) by lia. reflexivity. Qed.

(** ** C25: generated parsers always terminate *)
(** For every accepted grammar there is a number of nested calls, linear in
    the length of the input, within which the parser returns; it panics only
    if some literal of the grammar is not ASCII (see C05). *)
Theorem C25_terminates : forall cs e r tab root, compiles cs e r tab root ->
  exists N, forall s fuel, S N * S (length s) <= fuel ->
    fst (take tab fuel root (iw_new s)) <> OutOfFuel /\ parse_str tab fuel root s <> OutOfFuel.
Proof.
  intros cs e r tab root H. destruct (compiles_table _ _ _ _ _ H) as (m & _ & _ & _ & _ & _ & Hl).
  destruct (compiles_flat _ _ _ _ _ H) as (f & Hf & _).
  destruct (left_wf_bound tab Hl) as [N HN]. exists N. intros s fuel Hfuel.
  assert (G : fst (take tab fuel root (iw_new s)) <> OutOfFuel).
  { apply (take_total tab f Hf N HN fuel N root [] s); auto; [apply at_cursor_new|nia]. }
  split; [exact G|]. rewrite parse_take. destruct (take tab fuel root (iw_new s)) as [[v|x| |] st]; cbn in G; try discriminate; try congruence.
  destruct (remaining st); discriminate.
Qed.
Theorem C25_result : forall cs e r tab root s, compiles cs e r tab root -> exists x, parses tab root s x.
Proof.
  intros cs e r tab root s H. destruct (C25_terminates _ _ _ _ _ H) as [N HN].
  exists (parse_str tab (S N * S (length s)) root s). apply parses_run. apply HN. lia.
Qed.
(** A character that is not ASCII does no harm at the end of a literal.  First
    for the literals of the table, then for those of the grammar. *)
Lemma no_panic_table cs e r tab root s : compiles cs e r tab root -> (forall id w c, def_of tab id = Some (DLit w c) -> ascii (removelast w)) ->
  (exists v, parses tab root s (Ok v)) \/ (exists x, parses tab root s (Err x)).
Proof.
  intros H Ha. destruct (C25_result _ _ _ _ _ s H) as [[v|x| |] Hx]; eauto; exfalso.
  - destruct Hx as [_ [f Hf]]. specialize (Hf f (le_n f)). rewrite parse_take in Hf.
    destruct (compiles_flat _ _ _ _ _ H) as (ty & Hty & _). destruct (compiles_table _ _ _ _ _ H) as (m & _ & Hroot & _).
    assert (Hp : fst (take tab f root (iw_new s)) <> Panic) by (apply (take_no_panic tab ty Hty); [exact Ha | exact Hroot]).
    destruct (take tab f root (iw_new s)) as [[v|x| |] st]; cbn in *; try discriminate; [|congruence]. destruct (remaining st); discriminate.
  - apply Hx. reflexivity.
Qed.
Theorem C25_no_panic : forall cs e r tab root s, compiles cs e r tab root ->
  (forall w, In w (t_lits r) -> ascii (removelast w)) -> (exists v, parses tab root s (Ok v)) \/ (exists x, parses tab root s (Err x)).
Proof.
  intros cs e r tab root s H Ha. apply (no_panic_table _ _ _ _ _ s H). intros id w c Hd. apply Ha. destruct H as [E (b & Hg & ->)].
  refine (gen_lits cs (t_lits r) r bst_default b root (incl_refl _) _ Hg id w c Hd). intros i w' c' Hi. destruct i; discriminate.
Qed.
Corollary C25_ascii_no_panic : forall cs e r tab root s, compiles cs e r tab root ->
  (forall w, In w (t_lits r) -> ascii w) -> (exists v, parses tab root s (Ok v)) \/ (exists x, parses tab root s (Err x)).
Proof. intros cs e r tab root s H Ha. apply (C25_no_panic _ _ _ _ _ s H). intros w Hw. apply ascii_removelast, Ha, Hw. Qed.
(** A literal that is not ASCII can make the parser panic: the grammar
    ["éa"] on the input "éb". *)
Definition ex_accent : nexpr := ELit a0 [233; 97]%N.
Theorem C25_never_panics_refuted : exists r tab root s, compiles cs0 ex_accent r tab root /\ parses tab root s Panic.
Proof.
  eexists. eexists. exists 0, [233; 98]%N. split.
  - split; [vm_compute; reflexivity|]. eexists. split; [vm_compute; reflexivity|reflexivity].
  - split; [discriminate|]. exists 1. intros f Hf. rewrite (parse_mono _ 1) by (auto; vm_compute; discriminate). vm_compute. reflexivity.
Qed.
Print Assumptions C25_terminates.
Print Assumptions C25_no_panic.
Print Assumptions C25_ascii_no_panic.

(** ** C22: the generated parser decides the language *)
(** Unconditionally, the parser returns a value exactly for the texts of the
    values of the root type. *)
Lemma parse_ok_iff cs e r tab root : compiles cs e r tab root ->
  forall s t, parses tab root s (Ok t) <-> derives tab root t /\ yield t = s.
Proof.
  intros H s t. destruct (compiles_flat _ _ _ _ _ H) as (f & Hf & _). split.
  - intros [_ [fuel Hx]]. specialize (Hx fuel (le_n _)). rewrite parse_take in Hx.
    pose proof (take_sound tab fuel root [] s (iw_new s) (at_cursor_new s)) as Hs.
    destruct (take tab fuel root (iw_new s)) as [[v|x| |] st]; try discriminate. destruct Hs as (u & w & -> & Hc & _ & Hd).
    destruct (Hd v eq_refl) as [Hd1 ->]. destruct (remaining st) eqn:Er; [|discriminate]. injection Hx as ->.
    split; [exact Hd1|]. destruct Hc as [Hc _]. rewrite Er in Hc. rewrite <- Hc, app_nil_r. reflexivity.
  - intros [Hd <-]. destruct (proj1 (take_complete tab f Hf) root t Hd [] [] (iw_new (yield t))) as [fuel Hx].
    { rewrite app_nil_r. apply at_cursor_new. }
    { intros c Hc. discriminate. }
    split; [discriminate|]. exists fuel. intros f' Hf'. destruct (Hx f' Hf') as (st' & E & [Hc _]). rewrite parse_take, E, Hc. reflexivity.
Qed.
Theorem C22_decides_language : forall cs e r tab root g, compiles cs e r tab root -> gram_of e = Some g -> sharing_ok r ->
  forall s, (exists v, parses tab root s (Ok v)) <-> language g s.
Proof.
  intros cs e r tab root g H Hg Hs s. pose proof (compiles_trees _ _ _ _ _ _ H Hs Hg) as Ht.
  unfold language. rewrite language_trees. split.
  - intros [v Hv]. apply (parse_ok_iff _ _ _ _ _ H) in Hv as [Hd Hy]. exists v. split; [apply Ht; exact Hd|exact Hy].
  - intros (t & Hd & Hy). exists t. apply (parse_ok_iff _ _ _ _ _ H). split; [apply Ht; exact Hd|exact Hy].
Qed.
Print Assumptions C22_decides_language.
(** It rejects all other texts (with an error, when the literals are ASCII but for their last characters). *)
Corollary C22_rejects : forall cs e r tab root g, compiles cs e r tab root -> gram_of e = Some g -> sharing_ok r ->
  (forall w, In w (t_lits r) -> ascii (removelast w)) -> forall s, (exists x, parses tab root s (Err x)) <-> ~ language g s.
Proof.
  intros cs e r tab root g H Hg Hs Ha s. rewrite <- (C22_decides_language _ _ _ _ _ _ H Hg Hs s). split.
  - intros [x Hx] [v Hv]. pose proof (parses_fun _ _ _ _ _ Hx Hv). discriminate.
  - intros Hn. destruct (C25_no_panic _ _ _ _ _ s H Ha) as [Hv|Hx]; [contradiction|exact Hx].
Qed.

(** ** C23: parse then print is the identity *)
Theorem C23_parse_print : forall cs e r tab root s v, compiles cs e r tab root -> parses tab root s (Ok v) ->
  exists fuel, forall fuel', fuel <= fuel' -> to_string tab fuel' root v = Some s.
Proof.
  intros cs e r tab root s v H Hv. apply (parse_ok_iff _ _ _ _ _ H) in Hv as [Hd <-]. exact (proj1 (to_string_yield tab) root v Hd).
Qed.
Theorem C23_parse_tree : forall cs e r tab root g s v, compiles cs e r tab root -> gram_of e = Some g -> sharing_ok r ->
  parses tab root s (Ok v) -> parse_tree g v /\ yield v = s.
Proof.
  intros cs e r tab root g s v H Hg Hs Hv. apply (parse_ok_iff _ _ _ _ _ H) in Hv as [Hd Hy].
  split; [apply (compiles_trees _ _ _ _ _ _ H Hs Hg); exact Hd|exact Hy].
Qed.
(** [take] of any generated type, on any state of the input: what has been
    consumed is exactly what the value prints. *)
Theorem C23_take_print : forall cs e r tab root id u w st fuel v st', compiles cs e r tab root ->
  at_cursor u w st -> take tab fuel id st = (Ok v, st') ->
  exists p rest, w = p ++ rest /\ at_cursor (u ++ p) rest st'
    /\ exists k, forall fuel', k <= fuel' -> to_string tab fuel' id v = Some p.
Proof.
  intros cs e r tab root id u w st fuel v st' H Hc E. pose proof (take_sound tab fuel id u w st Hc) as Hs. rewrite E in Hs.
  destruct Hs as (p & rest & -> & Hc' & _ & Hd). destruct (Hd v eq_refl) as [Hd' ->].
  exists (yield v), rest. split; [reflexivity|]. split; [exact Hc'|]. exact (proj1 (to_string_yield tab) id v Hd').
Qed.
Print Assumptions C23_parse_print.
Print Assumptions C23_take_print.

(** ** C24: every parse tree is recovered *)
Theorem C24_tree_recovered : forall cs e r tab root g t, compiles cs e r tab root -> gram_of e = Some g -> sharing_ok r ->
  parse_tree g t -> parses tab root (yield t) (Ok t).
Proof.
  intros cs e r tab root g t H Hg Hs Ht. apply (parse_ok_iff _ _ _ _ _ H). split; [|reflexivity].
  apply (compiles_trees _ _ _ _ _ _ H Hs Hg). exact Ht.
Qed.
(** [take] stops in front of a text that starts with a character outside the
    [flast] set (outside the [first] set, if nothing was consumed). *)
Theorem C24_take_stops : forall cs e r tab root g t rest u st, compiles cs e r tab root -> gram_of e = Some g -> sharing_ok r ->
  parse_tree g t -> at_cursor u (yield t ++ rest) st ->
  (forall c z, rest = c :: z -> ~ In c (if yield t then first_set (get_type r) else flast_set (get_type r))) ->
  exists fuel, forall fuel', fuel <= fuel' -> exists st', take tab fuel' root st = (Ok t, st') /\ at_cursor (u ++ yield t) rest st'.
Proof.
  intros cs e r tab root g t rest u st H Hg Hs Ht Hc Hr. destruct (compiles_flat _ _ _ _ _ H) as (f & Hf & Hroot).
  apply (proj1 (take_complete tab f Hf) root t); [|exact Hc|].
  - apply (compiles_trees _ _ _ _ _ _ H Hs Hg). exact Ht.
  - intros c Hh. destruct rest as [|c' z]; [discriminate|]. injection Hh as ->. specialize (Hr c z eq_refl). rewrite Hroot.
    split; intros Hy.
    + destruct (yield t); [congruence|exact Hr].
    + rewrite Hy in Hr. exact Hr.
Qed.
Print Assumptions C24_tree_recovered.
Print Assumptions C24_take_stops.

(** ** C27, C29: errors *)
Definition perr_pos (x : parse_error) : linecol := match x with InputContinues p => p | PTake e => terr_pos e end.

(** Whatever the grammar, an error carries the position of the first character
    that was not consumed. *)
Theorem C29_error_position : forall cs e r tab root s x, compiles cs e r tab root -> parses tab root s (Err x) ->
  exists u rest, s = u ++ rest /\ perr_pos x = spec_pos u (hd_error rest)
    /\ exists fuel, remaining (snd (take tab fuel root (iw_new s))) = rest
    /\ (forall fuel', fuel <= fuel' -> take tab fuel' root (iw_new s) = take tab fuel root (iw_new s)).
Proof.
  intros cs e r tab root s x H [_ [fuel Hx]]. pose proof (Hx fuel (le_n _)) as E. rewrite parse_take in E.
  pose proof (take_sound tab fuel root [] s (iw_new s) (at_cursor_new s)) as Hs.
  assert (Hm : forall fuel', fuel <= fuel' -> take tab fuel' root (iw_new s) = take tab fuel root (iw_new s)).
  { intros f Hf. apply take_mono; [exact Hf|]. intros Ho. destruct (take tab fuel root (iw_new s)) as [y st]. cbn in Ho. subst y. discriminate. }
  destruct (take tab fuel root (iw_new s)) as [[v|y| |] st] eqn:Et; try discriminate; destruct Hs as (u & w & -> & [Hc1 Hc2] & Ho & _); exists u, w.
  - split; [reflexivity|]. split.
    + destruct (remaining st) eqn:Er; [discriminate|]. injection E as <-. cbn. exact Hc2.
    + exists fuel. rewrite Et. auto.
  - split; [reflexivity|]. split; [injection E as <-; exact Ho|]. exists fuel. rewrite Et. auto.
Qed.
Print Assumptions C29_error_position.

(** At that point no word of the language goes on like the input: neither
    with the next character nor, at the end of the input, by ending there. *)
Lemma earliest_table cs e r tab root s x : compiles cs e r tab root -> parses tab root s (Err x) ->
  exists u rest, s = u ++ rest /\ perr_pos x = spec_pos u (hd_error rest)
    /\ forall z t, hd_error z = hd_error rest -> derives tab root t -> yield t <> u ++ z.
Proof.
  intros H Hx. destruct (compiles_flat _ _ _ _ _ H) as (f & Hf & _). destruct Hx as [_ [fuel Hx]].
  pose proof (Hx fuel (le_n _)) as E. rewrite parse_take in E.
  pose proof (take_sound tab fuel root [] s (iw_new s) (at_cursor_new s)) as Hs.
  destruct (take tab fuel root (iw_new s)) as [[v|y| |] st] eqn:Et; try discriminate; destruct Hs as (u & w & Es & Hc & Ho & _); exists u, w.
  - split; [exact Es|]. destruct Hc as [Hc1 Hc2]. destruct (remaining st) as [|c rest] eqn:Er; [discriminate|]. injection E as <-.
    split; [exact Hc2|]. intros z t Hz Ht. eapply (take_earliest tab f Hf fuel root s u w _ st Es Et); auto; [discriminate|split; [congruence|exact Hc2]|].
    intros t' _. rewrite <- Hc1. discriminate.
  - split; [exact Es|]. injection E as <-. split; [exact Ho|].
    intros z t Hz Ht. eapply (take_earliest tab f Hf fuel root s u w _ st Es Et); auto; discriminate.
Qed.
Theorem C27_earliest_error : forall cs e r tab root g s x, compiles cs e r tab root -> gram_of e = Some g -> sharing_ok r ->
  parses tab root s (Err x) ->
  exists u rest, s = u ++ rest /\ perr_pos x = spec_pos u (hd_error rest)
    /\ forall z, hd_error z = hd_error rest -> ~ language g (u ++ z).
Proof.
  intros cs e r tab root g s x H Hg Hs Hx. destruct (earliest_table _ _ _ _ _ _ _ H Hx) as (u & w & H1 & H2 & H3).
  exists u, w. split; [exact H1|]. split; [exact H2|]. intros z Hz Hl. apply language_trees in Hl as (t & Ht & Hy).
  apply (H3 z t Hz); [apply (compiles_trees _ _ _ _ _ _ H Hs Hg); exact Ht|exact Hy].
Qed.
Print Assumptions C27_earliest_error.

(** ** C28: linear time *)
Theorem C28_linear : forall cs e r tab root, compiles cs e r tab root ->
  exists K, forall s fuel, exists u rest, s = u ++ rest
    /\ remaining (snd (take tab fuel root (iw_new s))) = rest
    /\ calls tab fuel root (iw_new s) <= K * (length u + 1).
Proof.
  intros cs e r tab root H. destruct (compiles_table _ _ _ _ _ H) as (m & _ & _ & _ & _ & _ & Hl).
  destruct (compiles_flat _ _ _ _ _ H) as (f & Hf & _). destruct (left_wf_bound tab Hl) as [N HN]. destruct (arity_bound tab) as [M HM].
  eexists. intros s fuel. pose proof (take_sound tab fuel root [] s (iw_new s) (at_cursor_new s)) as Hs.
  destruct (take tab fuel root (iw_new s)) as [y st] eqn:Et. destruct Hs as (u & w & Es & Hc & _). exists u, w. split; [exact Es|].
  split; [apply Hc|]. apply (calls_linear tab f Hf N HN M HM fuel root [] s (iw_new s) u w (at_cursor_new s) Es). rewrite Et. exact Hc.
Qed.
Print Assumptions C28_linear.

(** ** C30: type sharing *)
(** The values of the generated root type are exactly the parse trees of the
    grammar, when fixed points with equal bodies have equal contexts. *)
Theorem C30_sharing_sound : forall cs e r tab root g, compiles cs e r tab root -> gram_of e = Some g -> sharing_ok r ->
  forall t, derives tab root t <-> parse_tree g t.
Proof. intros cs e r tab root g H Hg Hs t. symmetry. exact (compiles_trees _ _ _ _ _ _ H Hs Hg t). Qed.
(** That condition holds when no fixed point mentions the variable of an outer
    one, and when no two fixed points have equal bodies. *)
Theorem C30_closed_fixes : forall r, (forall B a i n, inside r B (TFix a i) -> ~ tfree (S n) i) -> sharing_ok r.
Proof. intros r H B a i B' a' i' H1 _ _ n Hn. destruct (H B a i n H1 Hn). Qed.
Print Assumptions C30_sharing_sound.
(** In general sharing is wrong: in
    ["l".!(/a/ "x"."p" | "q".!(/i/ "1".i | "2".a)) | "r".!(/a/ "x"."r" | "q".!(/i/ "1".i | "2".a))]
    the two inner fixed points share one type, although their [a] differ. *)
Definition ex_share_inner : nexpr := fix1 "i" (alt2 (cat2 (L "1") (V 0)) (cat2 (L "2") (V 1))).
Definition ex_share_half (s1 s2 : string) : nexpr :=
  cat2 (L s1) (fix1 "a" (alt2 (cat2 (L "x") (L s2)) (cat2 (L "q") ex_share_inner))).
Definition ex_share : nexpr := alt2 (ex_share_half "l" "p") (ex_share_half "r" "s").
Definition xp_tree (s : string) : tree := NAlt 0 (NCat [NLit (lit "x"); NLit (lit s)]).
Theorem C30_sharing_refuted : exists r tab root g, compiles cs0 ex_share r tab root /\ gram_of ex_share = Some g
  /\ (exists v, parses tab root (lit "rq2xp") (Ok v)) /\ ~ language g (lit "rq2xp")
  /\ language g (lit "rq2xs") /\ ~ (exists v, parses tab root (lit "rq2xs") (Ok v)).
Proof.
  assert (Hrun : forall tab root s x, parse_str tab 50 root s = x -> x <> OutOfFuel -> parses tab root s x).
  { intros tab root s x E Hn. subst x. apply parses_run. exact Hn. }
  eexists. eexists. eexists. eexists. split; [split; [vm_compute; reflexivity|eexists; split; [vm_compute; reflexivity|reflexivity]]|].
  split; [reflexivity|]. split; [eexists; apply Hrun; [vm_compute; reflexivity|discriminate]|].
  assert (Hin : language (GAlt [GCat [GLit (lit "l"); GFix (GAlt [GCat [GLit (lit "x"); GLit (lit "p")]; GCat [GLit (lit "q"); GFix (GAlt [GCat [GLit (lit "1"); GVar 0]; GCat [GLit (lit "2"); GVar 1]])]])];
     GCat [GLit (lit "r"); GFix (GAlt [GCat [GLit (lit "x"); GLit (lit "s")]; GCat [GLit (lit "q"); GFix (GAlt [GCat [GLit (lit "1"); GVar 0]; GCat [GLit (lit "2"); GVar 1]])]])]])
     (lit "rq2xs")).
  { apply language_trees. exists (NAlt 1 (NCat [NLit (lit "r"); NAlt 1 (NCat [NLit (lit "q"); NAlt 1 (NCat [NLit (lit "2"); NBox (xp_tree "s")])])])). split; [|reflexivity].
    cbn. right. left. eexists. split; [reflexivity|]. eexists. split; [reflexivity|]. eexists. eexists. split; [reflexivity|]. split; [reflexivity|].
    eexists. eexists. split; [reflexivity|]. split; [|reflexivity].
    exists 2. cbn. right. left. eexists. split; [reflexivity|]. eexists. split; [reflexivity|]. eexists. eexists. split; [reflexivity|]. split; [reflexivity|].
    eexists. eexists. split; [reflexivity|]. split; [|reflexivity].
    exists 1. cbn. right. left. eexists. split; [reflexivity|]. eexists. split; [reflexivity|]. eexists. eexists. split; [reflexivity|]. split; [reflexivity|].
    eexists. eexists. split; [reflexivity|]. split; [|reflexivity]. eexists. split; [reflexivity|]. left. eexists. split; [reflexivity|].
    eexists. split; [reflexivity|]. eexists. eexists. split; [reflexivity|]. split; [reflexivity|]. eexists. eexists. split; [reflexivity|]. split; reflexivity. }
  split; [|split].
  - intros Hl.
    (* Every word of the right half that starts with "r" ends in "s". *)
    assert (Hs : forall w, lang_of [] (GFix (GAlt [GCat [GLit (lit "x"); GLit (lit "s")]; GCat [GLit (lit "q"); GFix (GAlt [GCat [GLit (lit "1"); GVar 0]; GCat [GLit (lit "2"); GVar 1]])]])) w -> last w 0%N = chr "s").
    { apply lang_fix_least. set (M := fun w : rstr => last w 0%N = chr "s"). intros w [Hw|[Hw|[]]].
      - destruct Hw as (u1 & u2 & -> & -> & v1 & v2 & -> & -> & ->). reflexivity.
      - destruct Hw as (u1 & u2 & -> & -> & v1 & v2 & -> & Hv & ->). rewrite app_nil_r.
        assert (Hi : forall y, lang_of [M] (GFix (GAlt [GCat [GLit (lit "1"); GVar 0]; GCat [GLit (lit "2"); GVar 1]])) y -> y <> [] /\ last y 0%N = chr "s").
        { apply lang_fix_least. intros y [Hy|[Hy|[]]].
          - destruct Hy as (y1 & y2 & -> & -> & z1 & z2 & -> & [Hz1 Hz2] & ->). rewrite app_nil_r. split; [discriminate|]. cbn. destruct z1; [congruence|exact Hz2].
          - destruct Hy as (y1 & y2 & -> & -> & z1 & z2 & -> & Hz & ->). rewrite app_nil_r. split; [discriminate|]. cbn in *. unfold M in Hz. destruct z1; [discriminate|exact Hz]. }
        destruct (Hi v1 Hv) as [Hv1 Hv2]. unfold M. cbn. destruct v1; [congruence|exact Hv2]. }
    destruct Hl as [Hl|[Hl|[]]]; destruct Hl as (u1 & u2 & E & -> & v1 & v2 & -> & Hv & ->); [discriminate|].
    cbn in E. injection E as E. rewrite app_nil_r in E. apply Hs in Hv. rewrite <- E in Hv. discriminate.
  - exact Hin.
  - intros [v Hv]. match type of Hv with parses ?t ?r ?s _ => pose proof (Hrun t r s) as Hq end.
    specialize (Hq _ eq_refl). pose proof (parses_fun _ _ _ _ _ Hv (Hq ltac:(vm_compute; discriminate))) as Hd. vm_compute in Hd. discriminate.
Qed.
Print Assumptions C30_sharing_refuted.

(** ** C31: emitted code *)
(** Types (transitively) mentioned by a type. *)
Inductive mentioned (tab : table) : nat -> nat -> Prop :=
| mentioned_self i : mentioned tab i i
| mentioned_step i j k : In j (mentions tab i) -> mentioned tab j k -> mentioned tab i k.

Theorem C31_emitted : forall cs e r b root, typecheck e = Ok r -> generate cs r = Some (b, root) ->
  exists order nm, emit_code None root b = Some (order, (lit "Ast", nm)) /\ option_map en_name (nth_error (data b) root) = Some nm
    /\ NoDup order
    /\ (forall x, In x order <-> mentioned (data b) root x)
    /\ (forall x, In x order <-> x < length (data b)).
Proof.
  intros cs e r b root E Hg. destruct (compiles_table cs e r (data b) root (conj E (ex_intro _ b (conj Hg eq_refl)))) as (m & _ & Hr & Hgood & _ & Hreach & _).
  assert (Hdeps : forall i en j, nth_error (data b) i = Some en -> In j (en_deps en) -> In j (mentions (data b) i)).
  { intros i en j Hi Hj. assert (Hlt : i < length (data b)) by (apply nth_error_Some; congruence).
    destruct (Hgood i Hlt) as (_ & _ & _ & Hd). unfold deps_ok in Hd. rewrite Hi in Hd. apply Hd in Hj. unfold contains in Hj.
    destruct (def_of (data b) i) as [[]|]; auto; contradiction. }
  assert (Hlt : forall i j, In j (mentions (data b) i) -> j < length (data b)).
  { intros i j Hj. destruct (Nat.lt_ge_cases i (length (data b))) as [Hi|Hi].
    - destruct (Hgood i Hi) as (Hf & _). apply flat_ok_ids in Hf. rewrite Forall_forall in Hf. auto.
    - unfold mentions, def_of in Hj. rewrite (proj2 (nth_error_None _ _) Hi) in Hj. contradiction. }
  destruct (emit_all (data b)) with (root := root) as (order & Ho & Hnd & Hin); [intros i en j H1 H2; eapply Hlt, Hdeps; eauto|exact Hr|].
  unfold emit_code. rewrite Ho. destruct (nth_error (data b) root) as [en|] eqn:Een; [|apply nth_error_None in Een; lia].
  exists order, (en_name en). split; [reflexivity|]. split; [reflexivity|]. split; [exact Hnd|].
  assert (Hml : forall x, In x order <-> x < length (data b)).
  { intros x. rewrite Hin. split; [|apply Hreach]. clear Hg Ho Hin Hreach Een. intros Hx. induction Hx as [i|i j k en' Hi Hj Hk IH]; [exact Hr|].
    apply IH. eapply Hlt, Hdeps; eauto. }
  split; [|exact Hml].
  intros x. split.
  - intros Hx. apply Hin in Hx. clear Hg Hml Hreach Hr Ho Hin Een. induction Hx as [i|i j k en' Hi Hj Hk IH]; [constructor|].
    econstructor; [eapply Hdeps; eauto|exact IH].
  - intros Hx. apply Hml. clear Hg Ho Hin Hreach Hml Een. induction Hx as [i|i j k Hj Hk IH]; [exact Hr|]. apply IH. eapply Hlt; eauto.
Qed.
Print Assumptions C31_emitted.

(** ** C32: names of types *)
Definition type_name (tab : table) (id : nat) (s : rstr) : Prop := option_map en_name (nth_error tab id) = Some (TnIdent s).
(** Distinct types have distinct names, when no converted name ends in a digit
    or is one of [Lit], [Cat], [Alt], [Fix]. *)
Theorem C32_distinct_types : forall cs e r tab root, compiles cs e r tab root ->
  (forall n c, In n (t_names r) -> camel cs (name_text n) = Some c ->
     (forall u d, c = u ++ [d] -> ~ (48 <= d <= 57)%N) /\ ~ In c [lit "Lit"; lit "Cat"; lit "Alt"; lit "Fix"]) ->
  forall i j s, type_name tab i s -> type_name tab j s -> i = j.
Proof.
  intros cs e r tab root [E (b & Hg & ->)] Hn i j s. apply (n_dist b). apply (generate_names cs r b root Hn Hg).
Qed.
(** In every case the name of a type ends in a digit, so it is none of the
    names [Ast], [Epsilon], [Box] and [Parse] used by the emitted code. *)
Theorem C32_not_reserved : forall cs e r tab root i s, compiles cs e r tab root -> type_name tab i s ->
  exists u d, s = u ++ [d] /\ (48 <= d <= 57)%N.
Proof.
  intros cs e r tab root i s [E (b & Hg & ->)] Hi.
  assert (Hb : numbered (data b)). { eapply (gen_numbered cs r bst_default b root); [|exact Hg]. intros [|k] w Hw; discriminate. }
  destruct (Hb i s Hi) as (p & n & ->). destruct (exists_last (dec_nonempty n)) as (u & d & Eu). exists (p ++ u), d. rewrite Eu, app_assoc. split; [reflexivity|].
  pose proof (dec_digits n) as Hd. rewrite Eu in Hd. apply Forall_app in Hd as [_ Hd]. inversion Hd; assumption.
Qed.
(** In general two types can get one name: [("a") . ("b") : lit]. *)
Definition ex_clash_type : nexpr := cat2 (L "a") (ELit (Ann (Some (nlabel "lit")) 0%N) (lit "b")).
Theorem C32_distinct_types_refuted : exists r tab root i j s, compiles cs0 ex_clash_type r tab root
  /\ i <> j /\ type_name tab i s /\ type_name tab j s.
Proof.
  eexists. eexists. eexists. exists 0, 1, (lit "Lit1"). split; [split; [vm_compute; reflexivity|eexists; split; [vm_compute; reflexivity|reflexivity]]|].
  split; [discriminate|]. split; vm_compute; reflexivity.
Qed.
(** The alias that [emit_code] makes for a name that is given to it: it is the
    name with a number, the code before it is the same as without a name, and
    no type has its name, under the conditions of [C32_distinct_types] and if
    the given name is not raw, does not end in a digit and is not one of the
    four words either. *)
Theorem C32_alias : forall cs e r b root n, typecheck e = Ok r -> generate cs r = Some (b, root) ->
  exists order nm k, emit_code None root b = Some (order, (lit "Ast", nm)) /\ emit_code (Some n) root b = Some (order, (name_text n ++ dec (S k), nm)).
Proof.
  intros cs e r b root n E Hg. destruct (C31_emitted cs e r b root E Hg) as (order & nm & Ho & _). pose proof Ho as H2. unfold emit_code in H2.
  destruct (emit_loop _ _ _ _) as [o |] eqn:El; [| discriminate]. destruct (nth_error (data b) root) as [en |] eqn:En; [| discriminate]. injection H2 as -> <-.
  eexists order, (en_name en), _. split; [exact Ho |]. unfold emit_code. rewrite El, En, Nat.add_1_r. reflexivity.
Qed.
Theorem C32_alias_fresh : forall cs e r b root n order alias nm, typecheck e = Ok r -> generate cs r = Some (b, root) ->
  (forall n c, In n (t_names r) -> camel cs (name_text n) = Some c ->
     (forall u d, c = u ++ [d] -> ~ (48 <= d <= 57)%N) /\ ~ In c [lit "Lit"; lit "Cat"; lit "Alt"; lit "Fix"]) ->
  (forall u d, name_text n = u ++ [d] -> ~ (48 <= d <= 57)%N) -> ~ In (name_text n) [lit "Lit"; lit "Cat"; lit "Alt"; lit "Fix"] ->
  (forall i, n_content n = Spanned i -> id_raw i = false) ->
  emit_code (Some n) root b = Some (order, (alias, nm)) ->
  alias <> lit "Ast" /\ forall i, ~ type_name (data b) i alias.
Proof.
  intros cs e r b root n order alias nm E Hg Hn Hd Hp Hr He. pose proof (generate_names cs r b root Hn Hg) as [_ Hf].
  unfold emit_code in He. destruct (emit_loop _ _ _ _); [| discriminate]. destruct (nth_error (data b) root); [| discriminate]. cbv zeta in He. injection He as _ <- _.
  assert (Ha : match n_content n with Spanned i => id_raw i | Spanless _ => false end = false) by (destruct (n_content n); auto). rewrite Ha. fold (cnt (name_text n) (name_map b)). split.
  - intros K. destruct (exists_last (dec_nonempty (cnt (name_text n) (name_map b) + 1))) as (u & d & Eu). rewrite Eu, app_assoc in K. change (lit "Ast") with ([65%N; 115%N] ++ [116%N]) in K. apply app_inj_tail in K as [_ ->].
    pose proof (dec_digits (cnt (name_text n) (name_map b) + 1)) as Q. rewrite Eu in Q. apply Forall_app in Q as [_ Q]. inversion Q as [| ? ? [Q1 Q2] _]. cbv in Q2. now apply Q2.
  - intros i Hi. destruct (Hf i _ Hi) as [(p & Hpp & K) | (c & q & [P1 P2] & K & Hq)].
    + apply numbered_inj in K as [K _]; [rewrite K in Hp; contradiction | exact Hd | now apply prefixes_end].
    + apply numbered_inj in K as [K1 K2]; [subst c q; unfold cnt in *; lia | exact Hd | exact P1].
Qed.
(** A raw name can meet a type: with [r#Foo] for a program with a part called
    [foo], both are [Foo1]. *)
Definition ex_alias : nexpr := ELit (Ann (Some (nlabel "Foo")) 0%N) (lit "b").
Theorem C32_alias_refuted : exists r b root order nm, typecheck ex_alias = Ok r /\ generate cs0 r = Some (b, root)
  /\ emit_code (Some (new_let (Spanned (Ident true (lit "Foo") 0%N)))) root b = Some (order, (lit "Foo1", nm)) /\ type_name (data b) 0 (lit "Foo1").
Proof. do 5 eexists. split; [vm_compute; reflexivity |]. split; [vm_compute; reflexivity |]. split; vm_compute; reflexivity. Qed.
Print Assumptions C32_distinct_types.
Print Assumptions C32_alias.
Print Assumptions C32_alias_fresh.

(** ** C33: names of fields and variants *)
Definition part_names (tab : table) (id : nat) : list rstr :=
  match def_of tab id with Some (DCat _ parts _) | Some (DAlt parts _ _ _ _ _) => parts | _ => [] end.
Theorem C33_distinct_parts : forall cs e r tab root, compiles cs e r tab root ->
  (forall n c, In n (t_names r) -> snake cs (name_text n) = Some c -> (forall u d, c = u ++ [d] -> ~ (48 <= d <= 57)%N) /\ c <> lit "part") ->
  (forall n c, In n (t_names r) -> camel cs (name_text n) = Some c -> (forall u d, c = u ++ [d] -> ~ (48 <= d <= 57)%N) /\ c <> lit "Branch") ->
  forall i, NoDup (part_names tab i).
Proof.
  intros cs e r tab root [E (b & Hg & ->)] H1 H2 i.
  assert (Hp : parts_ok (data b)).
  { eapply (gen_parts cs r bst_default b root); [|intros [|k]; exact Logic.I|exact Hg]. intros n c Hn. split; intros Hc; [exact (H1 n c Hn Hc)|exact (H2 n c Hn Hc)]. }
  specialize (Hp i). unfold part_names. destruct (def_of (data b) i) as [[| | | | |]|]; try constructor; apply Hp.
Qed.
(** One name per field and variant, always. *)
Theorem C33_distinct_parts_refuted :
  (exists r tab root, compiles cs0 (cat2 (L "a") (ELit (Ann (Some (nlabel "part")) 0%N) (lit "b"))) r tab root /\ part_names tab root = [lit "part1"; lit "part1"])
  /\ (exists r tab root, compiles cs0 (alt2 (L "a") (ELit (Ann (Some (nlabel "branch")) 0%N) (lit "b"))) r tab root /\ part_names tab root = [lit "Branch1"; lit "Branch1"]).
Proof.
  split; (eexists; eexists; eexists; split; [split; [vm_compute; reflexivity|eexists; split; [vm_compute; reflexivity|reflexivity]]|vm_compute; reflexivity]).
Qed.
Print Assumptions C33_distinct_parts.

(** ** C34: generated types have finite size *)
Theorem C34_finite_size : forall cs e r tab root, compiles cs e r tab root ->
  well_founded (fun j i => In j (contains tab i)).
Proof.
  intros cs e r tab root H. destruct (compiles_table _ _ _ _ _ H) as (m & _ & _ & Hg & _).
  apply (well_founded_lt_compat _ (sz m)). intros j i Hj. eapply contains_smaller; eauto.
Qed.
Print Assumptions C34_finite_size.

(** ** C35: conversions to char *)
Theorem C35_char_conversion : forall cs e r tab root id t, compiles cs e r tab root -> has_char tab id = true -> derives tab id t ->
  exists c, to_char tab id t = Some c /\ (exists k, forall fuel, k <= fuel -> to_string tab fuel id t = Some [c]).
Proof.
  intros cs e r tab root id t H Hc Hd. destruct (compiles_table _ _ _ _ _ H) as (m & _ & _ & Hg & _).
  destruct (to_char_yield tab) with (id := id) (t := t) as (c & H1 & H2); auto.
  - intros i Hi. apply Hg. exact Hi.
  - exists c. split; [exact H1|]. rewrite <- H2. exact (proj1 (to_string_yield tab) id t Hd).
Qed.
Print Assumptions C35_char_conversion.

(** ** C36: code generation does not panic *)
Theorem C36_no_panic : forall cs e r, typecheck e = Ok r ->
  (exists n, In n (t_names r) /\ (camel cs (name_text n) = None \/ snake cs (name_text n) = None))
  \/ (exists b root x, generate cs r = Some (b, root) /\ emit_code None root b = Some x).
Proof.
  intros cs e r E.
  destruct (existsb (fun n => match camel cs (name_text n), snake cs (name_text n) with Some _, Some _ => false | _, _ => true end) (t_names r)) eqn:Ex.
  - left. apply existsb_exists in Ex as (n & Hn & Hx). exists n. split; [exact Hn|].
    destruct (camel cs (name_text n)), (snake cs (name_text n)); auto; discriminate.
  - right. destruct (generate_spec cs r (typecheck_wt _ _ E)) as (b & root & m & Hg & _).
    + apply Forall_forall. intros n Hn. split; intros Hc.
      * enough (false = true) by discriminate. rewrite <- Ex. apply existsb_exists. exists n. rewrite Hc. auto.
      * enough (false = true) by discriminate. rewrite <- Ex. apply existsb_exists. exists n. rewrite Hc. destruct (camel cs (name_text n)); auto.
    + destruct (C31_emitted cs e r b root E Hg) as (order & nm & Ho & _). eauto 10.
Qed.
Print Assumptions C36_no_panic.

(** ** A concrete, non-trivial grammar meets all the hypotheses *)
Example C22_ex : exists r tab root g, compiles cs0 ex_nested r tab root /\ gram_of ex_nested = Some g /\ sharing_ok r
  /\ (forall w, In w (t_lits r) -> ascii w)
  /\ parses tab root (lit "(,v,(,v,v))") (Ok (NAlt 0 (NCat [NLit (lit "("); NAlt 0 (NCat [NLit (lit ","); NBox (NAlt 1 (NLit (lit "v")));
       NBox (NAlt 0 (NCat [NLit (lit ","); NBox (NAlt 0 (NCat [NLit (lit "("); NAlt 0 (NCat [NLit (lit ","); NBox (NAlt 1 (NLit (lit "v")));
         NBox (NAlt 0 (NCat [NLit (lit ","); NBox (NAlt 1 (NLit (lit "v"))); NBox (NAlt 1 NEps)]))]); NLit (lit ")")])); NBox (NAlt 1 NEps)]))]); NLit (lit ")")])))
  /\ parses tab root (lit "(,v,(") (Err (PTake (EndOfStream (LC 1 5)))).
Proof.
  eexists. eexists. eexists. eexists. split; [split; [vm_compute; reflexivity|eexists; split; [vm_compute; reflexivity|reflexivity]]|].
  split; [reflexivity|]. split; [apply sharing_okb_ok; vm_compute; reflexivity|].
  split; [intros w Hw; repeat (destruct Hw as [<-|Hw]; [repeat constructor|]); destruct Hw|].
  split.
  - match goal with |- parses ?t ?r ?s ?x => assert (G : parse_str t 60 r s = x) by (vm_compute; reflexivity) end. rewrite <- G. apply parses_run. rewrite G. discriminate.
  - match goal with |- parses ?t ?r ?s ?x => assert (G : parse_str t 60 r s = x) by (vm_compute; reflexivity) end. rewrite <- G. apply parses_run. rewrite G. discriminate.
Qed.
(** Names and conversions to [char]: ["a" : x . ("b" | "c") : y]. *)
Definition ex_named : nexpr :=
  cat2 (ELit (Ann (Some (nlabel "x")) 0%N) (lit "a")) (EAlt (Ann (Some (nlabel "y")) 0%N) (L "b") [(0%N, L "c")]).
Example C32_ex : exists r tab root, compiles cs0 ex_named r tab root
  /\ map en_name tab = [TnIdent (lit "X1"); TnIdent (lit "Lit2"); TnIdent (lit "Lit3"); TnIdent (lit "Y1"); TnIdent (lit "Cat5")]
  /\ part_names tab root = [lit "x1"; lit "y1"]
  /\ map (fun n => camel cs0 (name_text n)) (t_names r) = [Some (lit "X"); Some (lit "Y")]
  /\ has_char tab 3 = true /\ to_char tab 3 (NAlt 1 (NLit (lit "c"))) = Some (chr "c").
Proof.
  eexists. eexists. eexists. split; [split; [vm_compute; reflexivity|eexists; split; [vm_compute; reflexivity|reflexivity]]|].
  repeat (split; [vm_compute; reflexivity|]). vm_compute. reflexivity.
Qed.
