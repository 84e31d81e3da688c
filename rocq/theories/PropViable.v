(** * PropViable: the errors of generated parsers say what could have followed (C82). *)
From Coq Require Import String.
From Verif Require Import ViableFacts PropGen InferMore Examples.
From Coq Require Import List.
Open Scope list_scope.

Lemma compiles_inhabited cs e r tab root g : compiles cs e r tab root -> gram_of e = Some g -> sharing_ok r -> productive [] g ->
  forall id, id < length tab -> exists t, derives tab id t.
Proof.
  intros H Hg Hs Hp. destruct (compiles_table _ _ _ _ _ H) as (m & _ & _ & Hgood & _ & Hreach & _). destruct H as [E (b & Hgen & ->)].
  destruct (typecheck_typed e r E) as (g' & s & Hg' & Hr & _). rewrite Hg in Hg'. injection Hg' as <-. subst g.
  apply gen_total in Hgen. fold (generate (ShareFacts.total cs) r) in Hgen. apply (generate_repr (ShareFacts.total cs) r Hs) in Hgen; [| exact (typecheck_wt _ _ E) | apply total_names].
  destruct (repr_inhabited _ _ _ _ [] Hgen) as (V & V1 & V2 & V3); [intros n f Hn; destruct n; discriminate | exact Hp |].
  assert (C : forall x y, reach (data b) x y -> In x V -> In y V).
  { intros x y Hxy. induction Hxy as [x | x y z en Hi Hj _ IH]; [auto |]. intros Hx. assert (Hlt : x < length (data b)) by (apply nth_error_Some; congruence).
    destruct (Hgood x Hlt) as (_ & _ & _ & Hd). unfold deps_ok in Hd. rewrite Hi in Hd. apply Hd in Hj.
    assert (Hy : In y (mentions (data b) x)) by (unfold contains in Hj; destruct (def_of (data b) x) as [[]|]; auto; contradiction).
    destruct (V3 x Hx y Hy) as [K | []]. auto. }
  intros id Hid. apply V2. eapply C; eauto.
Qed.

(** ** C82 *)
(** Every sub-grammar having a word, an error is true of the language: what
    was consumed starts a word; every character that is said to be expected
    goes on to a word, and the one met is not among them; the expected literal
    goes on to a word; at the end of the input, more input would have made a
    word; if the input continues, what was consumed is a word.  And nothing
    that goes on like the input is a word. *)
Theorem C82_errors_true : forall cs e r tab root g s x, compiles cs e r tab root -> gram_of e = Some g -> sharing_ok r -> productive [] g ->
  parses tab root s (Err x) ->
  exists u rest, s = u ++ rest /\ perr_pos x = spec_pos u (hd_error rest)
    /\ match x with PTake y => says (language g) u rest y | InputContinues _ => rest <> [] /\ language g u end
    /\ forall z, hd_error z = hd_error rest -> ~ language g (u ++ z).
Proof.
  intros cs e r tab root g s x H Hg Hs Hp Hx. pose proof (compiles_inhabited _ _ _ _ _ _ H Hg Hs Hp) as Hinh.
  destruct (compiles_table _ _ _ _ _ H) as (m & _ & Hroot & Hgood & _ & _ & Hl). assert (Hf : forall id, id < length tab -> flat_ok tab (tau m) id) by (intros id Hid; apply Hgood; exact Hid).
  assert (T : forall w, words tab root w <-> language g w).
  { intros w. unfold language. rewrite language_trees. split; intros (t & H1 & H2); exists t; (split; [apply (compiles_trees _ _ _ _ _ _ H Hs Hg); exact H1 | exact H2]). }
  destruct Hx as [_ [fuel Hx]]. pose proof (Hx fuel (le_n _)) as E. rewrite parse_take in E.
  pose proof (take_sound tab fuel root [] s (iw_new s) (at_cursor_new s)) as Hsd.
  destruct (take tab fuel root (iw_new s)) as [[v|y| |] st] eqn:Et; try discriminate; destruct Hsd as (u & w & Es & Hc & Ho & Hv); exists u, w; (split; [exact Es |]).
  - destruct (Hv v eq_refl) as [Hd Hy]. destruct Hc as [Hc1 Hc2]. destruct (remaining st) as [|c rest] eqn:Er; [discriminate|]. injection E as <-.
    split; [exact Hc2|]. split; [split; [rewrite <- Hc1; discriminate | apply T; exists v; auto] |]. intros z Hz Hw. apply T in Hw as (t & Ht & Hyt).
    eapply (take_earliest tab _ Hf fuel root s u w _ st Es Et); eauto; [discriminate|split; [congruence|exact Hc2]|].
    intros t' _. rewrite <- Hc1. discriminate.
  - injection E as <-. split; [exact Ho|]. split.
    + destruct (take_honest tab _ Hf Hl Hinh fuel root [] s (iw_new s) y st Hroot (at_cursor_new s) Et) as (p & rest & Ep & Hr & Hsay).
      rewrite (proj1 Hc) in Hr. subst rest. assert (p = u) as -> by (apply (app_inv_tail w); congruence).
      rewrite <- (app_nil_l u). eapply (says_embed _ _ [] []); [| exact Hsay]. intros w' Hw. rewrite app_nil_r. now apply T.
    + intros z Hz Hw. apply T in Hw as (t & Ht & Hyt). eapply (take_earliest tab _ Hf fuel root s u w _ st Es Et); eauto; discriminate.
Qed.
Print Assumptions C82_errors_true.
(** So the reported position is exactly the first one where the text stops
    being the start of a word (or, at the end, is one but not a word). *)
Corollary C82_first_bad_position : forall cs e r tab root g s x, compiles cs e r tab root -> gram_of e = Some g -> sharing_ok r -> productive [] g ->
  parses tab root s (Err x) ->
  exists u rest, s = u ++ rest /\ perr_pos x = spec_pos u (hd_error rest)
    /\ (forall v, (exists z, u = v ++ z) -> exists z, language g (v ++ z))
    /\ forall c r', rest = c :: r' -> forall z, ~ language g (u ++ c :: z).
Proof.
  intros cs e r tab root g s x H Hg Hs Hp Hx. destruct (C82_errors_true _ _ _ _ _ _ _ _ H Hg Hs Hp Hx) as (u & rest & H1 & H2 & H3 & H4). exists u, rest. split; [exact H1 |]. split; [exact H2 |]. split.
  - assert (K : exists z, language g (u ++ z)) by (destruct x as [y | p]; [eapply says_viable; eauto | exists []; rewrite app_nil_r; tauto]).
    intros v [z ->]. destruct K as [z' K]. exists (z ++ z'). now rewrite <- app_assoc in K.
  - intros c r' -> z. now apply H4.
Qed.
Print Assumptions C82_first_bad_position.

Definition run (e : nexpr) (s : rstr) : option (res tree parse_error) :=
  match typecheck e with Ok r => match generate cs0 r with Some (b, root) => Some (parse_str (data b) 50 root s) | None => None end | _ => None end.
Lemma run_parses e s x : run e s = Some x -> x <> OutOfFuel -> exists r tab root, compiles cs0 e r tab root /\ parses tab root s x.
Proof.
  unfold run. destruct (typecheck e) as [r | | |] eqn:E; try discriminate. destruct (generate cs0 r) as [[b root] |] eqn:G; [| discriminate]. intros [= <-] Hn.
  exists r, (data b), root. split; [split; [reflexivity || exact E | exists b; auto] | now apply parses_run].
Qed.
(** [("a" . ("x" | _)) . ("b" | "c")]: the expected characters need not be
    all that could have followed. *)
Definition ex_expect : nexpr := cat3 (L "a") (alt2 (L "x") (EEps a0)) (alt2 (L "b") (L "c")).
Theorem C82_incomplete : exists r tab root g p c exp, compiles cs0 ex_expect r tab root /\ gram_of ex_expect = Some g /\ sharing_ok r /\ productive [] g
  /\ parses tab root (lit "ad") (Err (PTake (BadBranch p c exp))) /\ language g (lit "axb") /\ ~ In (chr "x") exp.
Proof.
  destruct (run_parses ex_expect (lit "ad") (Err (PTake (BadBranch (LC 1 1) (chr "d") [chr "b"; chr "c"])))) as (r & tab & root & H1 & H2); [vm_compute; reflexivity | discriminate |].
  exists r, tab, root. eexists. exists (LC 1 1), (chr "d"), [chr "b"; chr "c"]. split; [exact H1 |]. split; [reflexivity |].
  split. { destruct H1 as [E _]. vm_compute in E. injection E as <-. apply sharing_okb_ok. vm_compute. reflexivity. }
  assert (P : forall s env, productive env (GLit s)) by (intros s env; split; [exists s; reflexivity | exact Logic.I]).
  assert (W : language (GCat [GLit (lit "a"); GAlt [GLit (lit "x"); GEps]; GAlt [GLit (lit "b"); GLit (lit "c")]]) (lit "axb")).
  { exists (lit "a"), (lit "xb"). split; [reflexivity |]. split; [reflexivity |]. exists (lit "x"), (lit "b"). split; [reflexivity |]. split; [now left |]. exists (lit "b"), []. split; [reflexivity |]. split; [now left | reflexivity]. }
  split; [| split; [exact H2 | split; [exact W | vm_compute; intros [K | [K | []]]; discriminate]]].
  split; [exists (lit "axb"); exact W |]. split; [apply P |]. split; [split; [exists (lit "x"); now left |] |].
  - split; [apply P |]. split; [split; [exists []; reflexivity | exact Logic.I] | exact Logic.I].
  - split; [| exact Logic.I]. split; [exists (lit "b"); now left |]. split; [apply P |]. split; [apply P | exact Logic.I].
Qed.
(** Where words are missing, an expected character need not lead anywhere:
    ["a" . (!(/r/ "x" . r) | "y")]. *)
Definition ex_dead : nexpr := cat2 (L "a") (alt2 (fix1 "r" (cat2 (L "x") (V 0))) (L "y")).
Theorem C82_unproductive_refuted : exists r tab root g p c exp, compiles cs0 ex_dead r tab root /\ gram_of ex_dead = Some g
  /\ parses tab root (lit "ad") (Err (PTake (BadBranch p c exp))) /\ In (chr "x") exp /\ forall z, ~ language g (lit "a" ++ chr "x" :: z).
Proof.
  destruct (run_parses ex_dead (lit "ad") (Err (PTake (BadBranch (LC 1 1) (chr "d") [chr "x"; chr "y"])))) as (r & tab & root & H1 & H2); [vm_compute; reflexivity | discriminate |].
  exists r, tab, root. eexists. exists (LC 1 1), (chr "d"), [chr "x"; chr "y"]. split; [exact H1 |]. split; [reflexivity |]. split; [exact H2 |]. split; [now left |].
  assert (D : forall env w, ~ lang_of env (GFix (GCat [GLit (lit "x"); GVar 0])) w).
  { intros env w Hw. change (lang_empty w). revert w Hw. apply (lang_fix_least env (GCat [GLit (lit "x"); GVar 0])). intros w (u & v & _ & _ & v1 & v2 & _ & Hv & _). exact Hv. }
  intros z (u & v & E & Hu & v1 & v2 & -> & Hv & ->). cbn in Hu. subst u. rewrite app_nil_r in E. assert (E' : chr "x" :: z = v1) by (now injection E). clear E. destruct Hv as [Hv | [Hv | []]]; [exact (D _ _ Hv) |]. cbn in Hv. rewrite Hv in E'. discriminate E'.
Qed.
Example C82_ex_string : exists r tab root, compiles cs0 (cat2 (L "abc") (L "d")) r tab root /\ parses tab root (lit "abx") (Err (PTake (BadString (LC 1 2) (lit "abx") (lit "abc")))).
Proof. apply run_parses; [vm_compute; reflexivity | discriminate]. Qed.
Example C82_ex_end : exists r tab root, compiles cs0 (cat2 (L "abc") (L "d")) r tab root /\ parses tab root (lit "abc") (Err (PTake (EndOfStream (LC 1 3)))).
Proof. apply run_parses; [vm_compute; reflexivity | discriminate]. Qed.
Example C82_ex_continues : exists r tab root, compiles cs0 (cat2 (L "abc") (L "d")) r tab root /\ parses tab root (lit "abcde") (Err (InputContinues (LC 1 4))).
Proof. apply run_parses; [vm_compute; reflexivity | discriminate]. Qed.
