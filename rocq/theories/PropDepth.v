(** * PropDepth: the stack a generated parser needs (C103). *)
From Coq Require Import String.
From Verif Require Import Depth SpecDepth DepthFacts DepthGram TakeFacts PropViable PropTake Examples.
From Verif Require Import PropGen.
From Verif Require Import JsonGen GenTrees JsonGenFacts JsonGenValue PropJsonGen.
From Coq Require Import List Lia PeanoNat.
Open Scope list_scope.

(** [T::parse_str(s)] nests its calls [d] deep (of generated or library types,
    its own one included): so for every large enough bound on the recursion of
    the model. *)
Definition nests (tab : table) (root : nat) (s : rstr) (d : nat) : Prop :=
  exists fuel, forall fuel', fuel <= fuel' -> fst (take tab fuel' root (iw_new s)) <> OutOfFuel /\ depth tab fuel' root (iw_new s) = d.
(** [value.to_string()] nests its calls [d] deep. *)
Definition fmt_nests (tab : table) (root : nat) (t : tree) (d : nat) : Prop :=
  exists fuel, forall fuel', fuel <= fuel' -> to_string tab fuel' root t <> None /\ fmt_depth tab fuel' root t = d.

Lemma nests_fun tab root s d d' : nests tab root s d -> nests tab root s d' -> d = d'.
Proof. intros [f H] [f' H']. destruct (H (Nat.max f f')) as [_ <-]; [lia |]. destruct (H' (Nat.max f f')) as [_ <-]; [lia |]. reflexivity. Qed.
Lemma nests_run tab fuel root s : fst (take tab fuel root (iw_new s)) <> OutOfFuel -> nests tab root s (depth tab fuel root (iw_new s)).
Proof.
  intros H. exists fuel. intros f Hf. rewrite (take_mono tab fuel f root (iw_new s) Hf H). split; [exact H |]. now apply depth_mono.
Qed.

(** ** C103 *)
(** Reading a value, and printing it, takes exactly as many nested calls as the
    value is high. *)
Theorem C103_parse : forall cs e r tab root s t d, compiles cs e r tab root -> parses tab root s (Ok t) -> nests tab root s d <-> d = height t.
Proof.
  intros cs e r tab root s t d H [_ [fuel Hx]]. assert (N : nests tab root s (height t)).
  { exists fuel. intros f Hf. specialize (Hx f Hf). rewrite parse_take in Hx. destruct (take tab f root (iw_new s)) as [[v | y | |] st] eqn:E; try discriminate.
    destruct (remaining st); [| discriminate]. injection Hx as ->. split; [discriminate |]. eapply depth_height; eauto. }
  split; [intros Hd; exact (nests_fun _ _ _ _ _ Hd N) | intros ->; exact N].
Qed.
Theorem C103_print : forall cs e r tab root s t d, compiles cs e r tab root -> parses tab root s (Ok t) -> fmt_nests tab root t d <-> d = height t.
Proof.
  intros cs e r tab root s t d H Hp. destruct (C23_parse_print _ _ _ _ _ _ _ H Hp) as [fuel Hx]. assert (N : fmt_nests tab root t (height t)).
  { exists fuel. intros f Hf. specialize (Hx f Hf). split; [congruence |]. eapply fmt_height; eauto. }
  split; [| intros ->; exact N]. intros [f Hd]. destruct N as [f' Hd']. destruct (Hd (Nat.max f f')) as [_ <-]; [lia |]. destruct (Hd' (Nat.max f f')) as [_ <-]; [lia |]. reflexivity.
Qed.
(** On every text the nesting is linear in the length of what is read. *)
Theorem C103_linear : forall cs e r tab root, compiles cs e r tab root ->
  exists K, forall s, exists u x rest d, s = u ++ rest /\ takes tab root s x rest /\ nests tab root s d /\ d <= K * (length u + 1).
Proof.
  intros cs e r tab root H. destruct (C28_linear _ _ _ _ _ H) as [K HK]. destruct (C25_terminates _ _ _ _ _ H) as [N HN]. exists K. intros s.
  destruct (HN s _ (le_n _)) as [H1 _]. destruct (HK s (S N * S (length s))) as (u & rest & E & R & C). exists u. eexists. exists rest. eexists.
  split; [exact E |]. split; [rewrite <- R; apply takes_run; exact H1 |]. split; [apply nests_run; exact H1 |]. etransitivity; [apply depth_calls | exact C].
Qed.
(** Every sub-grammar having a word, the nesting is bounded for all texts
    (on which the parser does not panic, see C25) exactly if there is a bound
    on the length of the words. *)
Theorem C103_bounded : forall cs e r tab root g, compiles cs e r tab root -> gram_of e = Some g -> sharing_ok r -> productive [] g ->
  (exists D, forall s x d, parses tab root s x -> x <> Panic -> nests tab root s d -> d <= D) <-> (exists n, forall w, language g w -> length w <= n).
Proof.
  intros cs e r tab root g H Hg Hs Hp. pose proof (compiles_words _ _ _ _ _ _ H Hg Hs) as T. split.
  - intros [D HD]. destruct (wide_bound tab) as (B & HB & Hw). exists (B ^ D). intros w Hl. apply T in Hl as (t & Ht & Hy).
    assert (P : parses tab root w (Ok t)) by (apply (parse_ok_iff _ _ _ _ _ H); auto). pose proof (HD w _ (height t) P ltac:(discriminate) (proj2 (C103_parse _ _ _ _ _ _ _ _ H P) eq_refl)) as K.
    rewrite <- Hy. etransitivity; [exact (proj1 (yield_short tab B HB Hw) root t Ht) |]. apply Nat.pow_le_mono_r; lia.
  - intros [n Hn]. destruct (C103_linear _ _ _ _ _ H) as [K HK]. exists (K * (n + 1)). intros s x d Hx Hpn Hd. destruct (HK s) as (u & y & rest & d' & Es & Ht & Hd' & Hle).
    rewrite (nests_fun _ _ _ _ _ Hd Hd'). assert (length u <= n); [| nia].
    destruct (C25_terminates _ _ _ _ _ H) as [N HN]. destruct (HN s _ (le_n _)) as [H1 _]. set (fuel := S N * S (length s)) in *.
    assert (Hv : (exists t, y = Ok t) \/ (exists z, x = Err z)).
    { destruct Ht as [Hy [f Hf]]. destruct Hx as [_ [f' Hf']]. destruct (Hf (Nat.max f f')) as (st & E & R); [lia |]. specialize (Hf' (Nat.max f f') ltac:(lia)). rewrite parse_take, E in Hf'.
      destruct y as [t | z | |]; [left; eauto | right; eauto | congruence | congruence]. }
    destruct Hv as [[t ->] | [z ->]].
    + apply (C102_take_ok _ _ _ _ _ _ _ _ _ H Hg Hs Hp) in Ht as (Et & Hpt & _). rewrite Es in Et. apply app_inv_tail in Et. subst u. apply Hn. apply T. exists t. split; [now apply (compiles_trees _ _ _ _ _ _ H Hs Hg) | reflexivity].
    + assert (Hu : exists v, language g (u ++ v)).
      { destruct (C82_errors_true _ _ _ _ _ _ _ _ H Hg Hs Hp Hx) as (u' & rest' & Es' & _ & Hsay & _).
        destruct Hx as [_ [f Hf]]. destruct Ht as [Hy [f' Hf']]. destruct (Hf' (Nat.max f f')) as (st & E & R); [lia |]. specialize (Hf (Nat.max f f') ltac:(lia)). rewrite parse_take, E in Hf.
        destruct y as [t | z' | |]; try discriminate; [| ].
        - assert (P : takes tab root s (Ok t) rest) by (split; [exact Hy |]; exists f'; exact Hf'). apply (C102_take_ok _ _ _ _ _ _ _ _ _ H Hg Hs Hp) in P as (Et & Hpt & _). rewrite Es in Et. apply app_inv_tail in Et. subst u. exists []. rewrite app_nil_r. apply T. exists t. split; [now apply (compiles_trees _ _ _ _ _ _ H Hs Hg) | reflexivity].
        - destruct (compiles_table _ _ _ _ _ H) as (m & _ & Hroot & Hgood & _ & _ & Hl). assert (Hfl : forall id, id < length tab -> flat_ok tab (tau m) id) by (intros id Hid; apply Hgood; exact Hid).
          destruct (take_honest tab _ Hfl Hl (compiles_inhabited _ _ _ _ _ _ H Hg Hs Hp) _ root [] s (iw_new s) z' st Hroot (at_cursor_new s) E) as (p & rest0 & Ep & Hr & Hsay').
          rewrite R in Hr. subst rest0. rewrite Es in Ep. apply app_inv_tail in Ep. subst p. apply says_viable in Hsay' as [v Hv]. exists v. now apply T. }
      destruct Hu as [v Hv]. apply Hn in Hv. rewrite app_length in Hv. lia.
Qed.
(** And exactly if the variable of no fixed point is used: a grammar without
    recursion. *)
Theorem C103_recursion : forall cs e r tab root g, compiles cs e r tab root -> gram_of e = Some g -> sharing_ok r -> productive [] g ->
  (exists D, forall s x d, parses tab root s x -> x <> Panic -> nests tab root s d -> d <= D) <-> ~ recursive g.
Proof.
  intros cs e r tab root g H Hg Hs Hp. pose proof (compiles_trees _ _ _ _ _ _ H Hs Hg) as T. split.
  - intros [D HD] Hr. destruct (recursive_high (S D) g [] Hp Hr) as (t & Ht & Hn). assert (P : parses tab root (yield t) (Ok t)) by (apply (parse_ok_iff _ _ _ _ _ H); split; [now apply T | reflexivity]).
    pose proof (HD _ _ (height t) P ltac:(discriminate) (proj2 (C103_parse _ _ _ _ _ _ _ _ H P) eq_refl)). lia.
  - intros Hr. apply (C103_bounded _ _ _ _ _ _ H Hg Hs Hp). destruct (flat_low g Hr 0) as [D HD]. destruct (wide_bound tab) as (B & HB & Hw). exists (B ^ D). intros w Hl.
    apply language_trees in Hl as (t & Ht & <-). pose proof (proj1 (yield_short tab B HB Hw) root t (proj1 (T t) Ht)) as K. etransitivity; [exact K |]. apply Nat.pow_le_mono_r; [lia |].
    apply (HD []); [| exact Ht]. intros i t' _ Hi. destruct i; destruct Hi.
Qed.

(** The generated JSON parser of the benchmark nests three calls for every
    character of a string. *)
Lemma star_height l : 3 * length l <= height (star_tree l).
Proof. induction l as [| y l IH]; [cbn; lia |]. cbn [star_tree length height map fold_right]. lia. Qed.
Theorem C103_json_strings : forall w, Forall printable_ascii w ->
  exists t d, parses json_tab json_root (quote :: w ++ [quote]) (Ok t) /\ nests json_tab json_root (quote :: w ++ [quote]) d /\ 3 * length w <= d.
Proof.
  intros w Hw. assert (L : exists l, Forall char_tree l /\ flat_map yield l = w /\ length l = length w).
  { induction Hw as [| c w Hc _ (l & Hl & Ey & El)]; [exists []; auto |]. destruct (lit_exists c Hc) as [x Hx]. exists (NAlt 0 x :: l). split; [constructor; [econstructor; exact Hx | exact Hl] |].
    cbn. rewrite (proj1 (proj2 (proj2 Hx))), Ey, El. auto. }
  destruct L as (l & Hl & Ey & El). destruct (quoted_tree l Hl) as [Q1 Q2]. destruct (ws_complete [] (Forall_nil _)) as (b & Hb & Eb).
  set (t := NAlt 1 (NCat [NAlt 4 (NCat [NLit [34%N]; star_tree l; NLit [34%N]]); b])).
  assert (P : parses json_tab json_root (quote :: w ++ [quote]) (Ok t)).
  { apply json_parses. split.
    - eapply (derives_fix T 0); [reflexivity |]. eapply (derives_alt T 182); [reflexivity | reflexivity |]. eapply (derives_cat T 181); [reflexivity |]. constructor; [apply value_iff; now constructor |]. constructor; [exact Hb | constructor].
    - unfold t. cbn [yield flat_map] in *. rewrite Eb, Q2, Ey, !app_nil_r. reflexivity. }
  destruct json_compiles as (e & r & Hc). exists t, (height t). split; [exact P |]. split; [now apply (C103_parse _ _ _ _ _ _ _ _ Hc P) |].
  pose proof (star_height l). unfold t. cbn [height map fold_right]. lia.
Qed.

(** ** Examples *)
(** A recursive grammar, [!(/r/ "a" . r | _)], and one without recursion. *)
Definition ex_as : nexpr := fix1 "r" (alt2 (cat2 (L "a") (V 0)) (EEps a0)).
Lemma run_nests n e s d : match typecheck e with Ok r => match generate cs0 r with Some (b, root) => Some (negb (match fst (take (data b) n root (iw_new s)) with OutOfFuel => true | _ => false end), depth (data b) n root (iw_new s)) | None => None end | _ => None end = Some (true, d) ->
  exists r tab root, compiles cs0 e r tab root /\ nests tab root s d.
Proof.
  destruct (typecheck e) as [r | | |] eqn:E; try discriminate. destruct (generate cs0 r) as [[b root] |] eqn:G; [| discriminate]. intros [= H1 <-].
  exists r, (data b), root. split; [split; [exact E | exists b; auto] |]. apply nests_run. intros K. rewrite K in H1. discriminate.
Qed.
Example C103_ex_recursive : exists r tab root g, compiles cs0 ex_as r tab root /\ gram_of ex_as = Some g /\ sharing_ok r /\ productive [] g /\ recursive g /\ nests tab root (lit "aaaaa") 17.
Proof.
  destruct (run_nests 50 ex_as (lit "aaaaa") 17) as (r & tab & root & H1 & H2); [vm_compute; reflexivity |]. exists r, tab, root. eexists. split; [exact H1 |]. split; [reflexivity |].
  split. { destruct H1 as [E _]. vm_compute in E. injection E as <-. apply sharing_okb_ok. vm_compute. reflexivity. }
  split; [| split; [cbn; auto | exact H2]].
  assert (W : language (GFix (GAlt [GCat [GLit (lit "a"); GVar 0]; GEps])) []) by (exists 1; right; left; reflexivity).
  split; [exists []; exact W |]. split; [exists []; right; left; reflexivity |]. split; [| split; [split; [exists []; reflexivity | exact Logic.I] | exact Logic.I]].
  split; [exists (lit "a"); exists (lit "a"), []; split; [reflexivity |]; split; [reflexivity |]; exists [], []; split; [reflexivity |]; split; [exact W | reflexivity] |].
  split; [split; [exists (lit "a"); reflexivity | exact Logic.I] |]. split; [split; [exists []; exact W | exact Logic.I] | exact Logic.I].
Qed.
Example C103_ex_flat : exists r tab root g, compiles cs0 ex_expect r tab root /\ gram_of ex_expect = Some g /\ sharing_ok r /\ productive [] g /\ ~ recursive g /\ nests tab root (lit "axb") 3.
Proof.
  destruct C82_incomplete as (r & tab & root & g & p & c & exp & H1 & H2 & H3 & H4 & _). destruct (run_nests 50 ex_expect (lit "axb") 3) as (r' & tab' & root' & H1' & H2'); [vm_compute; reflexivity |].
  destruct H1 as [E (b & G & ->)], H1' as [E' (b' & G' & ->)]. rewrite E in E'. injection E' as <-. rewrite G in G'. injection G' as <- <-.
  exists r, (data b), root, g. split; [split; [exact E | eauto] |]. split; [exact H2 |]. split; [exact H3 |]. split; [exact H4 |]. split; [| exact H2']. injection H2 as <-. cbn. tauto.
Qed.
Example C103_ex_json : Forall printable_ascii (lit "the quick brown fox").
Proof. repeat constructor; cbn; try lia; discriminate. Qed.
Print Assumptions C103_parse.
Print Assumptions C103_print.
Print Assumptions C103_linear.
Print Assumptions C103_bounded.
Print Assumptions C103_recursion.
Print Assumptions C103_json_strings.
