(** * PropTake: what [take] reads from the front of a text (C102). *)
From Coq Require Import String.
From Verif Require Import TakeFacts TakeStr PropViable Examples.
From Verif Require Import PropGen.
From Coq Require Import List Lia.
Open Scope list_scope.

(** [T::take], on an input of the characters of [s], ends with [x] and leaves
    [rest] to be read. *)
Definition takes (tab : table) (root : nat) (s : rstr) (x : res tree take_error) (rest : rstr) : Prop :=
  x <> OutOfFuel /\ exists fuel, forall fuel', fuel <= fuel' -> exists st, take tab fuel' root (iw_new s) = (x, st) /\ remaining st = rest.
(** [u] is the start of a word. *)
Definition starts_word (g : gram) (u : rstr) : Prop := exists z, language g (u ++ z).

Lemma takes_run tab fuel root s : fst (take tab fuel root (iw_new s)) <> OutOfFuel ->
  takes tab root s (fst (take tab fuel root (iw_new s))) (remaining (snd (take tab fuel root (iw_new s)))).
Proof.
  intros H. split; [exact H |]. exists fuel. intros f Hf. exists (snd (take tab fuel root (iw_new s))). split; [| reflexivity].
  rewrite (take_mono tab fuel f root (iw_new s) Hf); [now destruct (take tab fuel root (iw_new s)) |]. exact H.
Qed.
Lemma takes_fun tab root s x y r r' : takes tab root s x r -> takes tab root s y r' -> x = y /\ r = r'.
Proof.
  intros [_ [f Hf]] [_ [f' Hf']]. destruct (Hf (Nat.max f f')) as (st & E & R); [lia |]. destruct (Hf' (Nat.max f f')) as (st' & E' & R'); [lia |].
  rewrite E in E'. injection E' as -> ->. split; congruence.
Qed.
(** It always ends, and [take_str] gives the same result. *)
Theorem C102_result : forall cs e r tab root s, compiles cs e r tab root ->
  exists x rest, takes tab root s x rest /\ exists fuel, forall fuel', fuel <= fuel' -> take_str tab fuel' root s = x.
Proof.
  intros cs e r tab root s H. destruct (C25_terminates _ _ _ _ _ H) as [N HN]. destruct (HN s _ (le_n _)) as [H1 _]. eexists. eexists. split; [exact (takes_run _ _ _ _ H1) |].
  exists (S N * S (length s)). intros f Hf. unfold take_str. now rewrite (take_mono tab _ f root (iw_new s) Hf).
Qed.

Lemma compiles_words cs e r tab root g : compiles cs e r tab root -> gram_of e = Some g -> sharing_ok r -> forall w, words tab root w <-> language g w.
Proof.
  intros H Hg Hs w. unfold language. rewrite language_trees. split; intros (t & H1 & H2); exists t; (split; [apply (compiles_trees _ _ _ _ _ _ H Hs Hg); exact H1 | exact H2]).
Qed.

(** ** C102 *)
(** Every sub-grammar having a word, [take] succeeds with [t], leaving [rest],
    exactly when [t] is a parse tree, the text is that of [t] followed by
    [rest], and no word goes on from [t] the way [rest] does. *)
Theorem C102_take_ok : forall cs e r tab root g s t rest, compiles cs e r tab root -> gram_of e = Some g -> sharing_ok r -> productive [] g ->
  takes tab root s (Ok t) rest <->
  s = yield t ++ rest /\ parse_tree g t /\ forall c rest', rest = c :: rest' -> ~ starts_word g (yield t ++ [c]).
Proof.
  intros cs e r tab root g s t rest H Hg Hs Hp. pose proof (compiles_inhabited _ _ _ _ _ _ H Hg Hs Hp) as Hinh. pose proof (compiles_words _ _ _ _ _ _ H Hg Hs) as T.
  destruct (compiles_table _ _ _ _ _ H) as (m & _ & Hroot & Hgood & _ & _ & Hl). assert (Hf : forall id, id < length tab -> flat_ok tab (tau m) id) by (intros id Hid; apply Hgood; exact Hid).
  split.
  - intros [_ [fuel Hx]]. destruct (Hx fuel (le_n _)) as (st & E & R). pose proof (take_sound tab fuel root [] s (iw_new s) (at_cursor_new s)) as Hsd. rewrite E in Hsd.
    destruct Hsd as (u & w & Es & Hc & _ & Hv). destruct (Hv t eq_refl) as [Hd Hy]. pose proof (proj1 Hc) as Hw. rewrite R in Hw. subst w u.
    split; [exact Es |]. split; [now apply (compiles_trees _ _ _ _ _ _ H Hs Hg) |]. intros c rest' Er [z Hz]. rewrite <- app_assoc in Hz. apply T in Hz as (t' & Ht' & Hy').
    refine (take_earliest tab _ Hf fuel root s (yield t) rest (Ok t) st Es E _ Hc _ t' (c :: z) Ht' _ Hy'); [discriminate | intros _ _; rewrite Er; discriminate | now rewrite Er].
  - intros (-> & Ht & Hno). apply (compiles_trees _ _ _ _ _ _ H Hs Hg) in Ht. split; [discriminate |].
    destruct (proj1 (take_reads tab _ Hf Hl Hinh) root t Ht [] rest (iw_new (yield t ++ rest)) (at_cursor_new _)) as [fuel Hfuel].
    { intros c z Hc Hz. apply T in Hz. destruct rest as [| c' rest']; [discriminate |]. injection Hc as ->. apply (Hno c rest' eq_refl). exists z. now rewrite <- app_assoc. }
    exists fuel. intros f Hle. destruct (Hfuel f Hle) as (st' & E & Hc). exists st'. split; [exact E | apply Hc].
Qed.
Print Assumptions C102_take_ok.

(** Whatever the outcome (a panic apart, C25), what was read is the longest
    start of the text that starts a word, and the outcome is a success exactly
    when that is a word. *)
Theorem C102_longest_start : forall cs e r tab root g s x rest, compiles cs e r tab root -> gram_of e = Some g -> sharing_ok r -> productive [] g ->
  takes tab root s x rest -> x <> Panic ->
  exists u, s = u ++ rest /\ starts_word g u
    /\ (forall v w, s = v ++ w -> starts_word g v -> length v <= length u)
    /\ ((exists t, x = Ok t) <-> language g u).
Proof.
  intros cs e r tab root g s x rest H Hg Hs Hp Hx Hpan.
  assert (M : forall u, s = u ++ rest -> (forall c rest', rest = c :: rest' -> ~ starts_word g (u ++ [c])) -> forall v w, s = v ++ w -> starts_word g v -> length v <= length u).
  { intros u Es Hno v w Ev [z Hz]. destruct (Nat.le_gt_cases (length v) (length u)) as [L | L]; [exact L | exfalso].
    assert (K : exists c k, v = u ++ c :: k).
    { rewrite Es in Ev. clear - Ev L. revert v Ev L. induction u as [| a u IH]; intros [| b v] Ev L; cbn in *; try lia; [exists b, v; reflexivity |].
      injection Ev as -> Ev. destruct (IH v Ev) as (c & k & ->); [lia |]. now exists c, k. }
    destruct K as (c & k & ->). rewrite Es, <- app_assoc in Ev. apply app_inv_head in Ev. cbn in Ev. apply (Hno c (k ++ w) Ev). exists (k ++ z). now rewrite <- !app_assoc in *. }
  destruct x as [t | y | |]; [| | now elim Hpan | destruct Hx as [K _]; now elim K].
  - pose proof Hx as Hx0. apply (C102_take_ok _ _ _ _ _ _ _ _ _ H Hg Hs Hp) in Hx0 as (Es & Ht & Hno). exists (yield t). assert (L : language g (yield t)) by (apply language_trees; eauto).
    split; [exact Es |]. split; [exists []; now rewrite app_nil_r |]. split; [now apply M |]. split; [intros _; exact L | eauto].
  - destruct Hx as [_ [fuel Hx]]. destruct (Hx fuel (le_n _)) as (st & E & R).

    pose proof (compiles_inhabited _ _ _ _ _ _ H Hg Hs Hp) as Hinh. pose proof (compiles_words _ _ _ _ _ _ H Hg Hs) as T.
    destruct (compiles_table _ _ _ _ _ H) as (m & _ & Hroot & Hgood & _ & _ & Hl). assert (Hf : forall id, id < length tab -> flat_ok tab (tau m) id) by (intros id Hid; apply Hgood; exact Hid).
    destruct (take_honest tab _ Hf Hl Hinh fuel root [] s (iw_new s) y st Hroot (at_cursor_new s) E) as (u & r2 & Ep & Hr & Hsay). rewrite R in Hr. subst r2. exists u.
    assert (V : starts_word g u). { destruct (says_viable _ _ _ _ Hsay) as [z Hz]. exists z. now apply T. }
    assert (Hno : forall c rest'', rest = c :: rest'' -> ~ starts_word g (u ++ [c])).
    { intros c r' Er [z Hz]. rewrite <- app_assoc in Hz. apply T in Hz as (t' & Ht' & Hy'). pose proof (take_sound tab fuel root [] s (iw_new s) (at_cursor_new s)) as Hsd. rewrite E in Hsd.
      destruct Hsd as (u2 & w & Es & Hc & _ & _). pose proof (proj1 Hc) as Hw. rewrite R in Hw. subst w. assert (u2 = u) as -> by (apply (app_inv_tail rest); congruence).
      refine (take_earliest tab _ Hf fuel root s u rest (Err y) st Es E _ Hc _ t' (c :: z) Ht' _ Hy'); [discriminate | discriminate | now rewrite Er]. }
    split; [exact Ep |]. split; [exact V |]. split; [now apply M |]. split; [intros [t K]; discriminate |]. intros L. exfalso.
    apply language_trees in L as (t & Ht & Hy). assert (K : takes tab root s (Ok t) rest).
    { apply (C102_take_ok _ _ _ _ _ _ _ _ _ H Hg Hs Hp). rewrite Hy. auto. }
    destruct K as [_ [f' K]]. destruct (K (Nat.max fuel f')) as (s1 & K1 & _); [lia |]. destruct (Hx (Nat.max fuel f')) as (s2 & K2 & _); [lia |]. congruence.
Qed.
Print Assumptions C102_longest_start.

(** So [parse], which also wants the end of the input, is [take] that leaves
    nothing. *)
Corollary C102_parse : forall cs e r tab root s t, compiles cs e r tab root -> (parses tab root s (Ok t) <-> takes tab root s (Ok t) []).
Proof.
  intros cs e r tab root s t _. split.
  - intros [_ [f Hf]]. split; [discriminate |]. exists f. intros f' Hle. specialize (Hf f' Hle). rewrite parse_take in Hf. destruct (take tab f' root (iw_new s)) as [[v|y| |] st]; try discriminate.
    exists st. destruct (remaining st) eqn:Er; [injection Hf as ->; split; reflexivity | discriminate].
  - intros [_ [f Hf]]. split; [discriminate |]. exists f. intros f' Hle. destruct (Hf f' Hle) as (st & E & R). now rewrite parse_take, E, R.
Qed.
Print Assumptions C102_parse.

Definition run_take (e : nexpr) (s : rstr) : option (res tree take_error * rstr) :=
  match typecheck e with Ok r => match generate cs0 r with Some (b, root) => let '(x, st) := take (data b) 50 root (iw_new s) in Some (x, remaining st) | None => None end | _ => None end.
Lemma run_takes e s x rest : run_take e s = Some (x, rest) -> x <> OutOfFuel -> exists r tab root, compiles cs0 e r tab root /\ takes tab root s x rest.
Proof.
  unfold run_take. destruct (typecheck e) as [r | | |] eqn:E; try discriminate. destruct (generate cs0 r) as [[b root] |] eqn:G; [| discriminate].
  pose proof (takes_run (data b) 50 root s) as K. destruct (take (data b) 50 root (iw_new s)) as [y st]. intros [= <- <-] Hn.
  exists r, (data b), root. split; [split; [reflexivity || exact E | exists b; auto] | now apply K].
Qed.
(** ["a" . (_ | "bc")]: what is read need not be the longest start of the
    text that is itself a word; [take] fails on "abd" although "a" is a word. *)
Definition ex_opt : nexpr := cat2 (L "a") (alt2 (EEps a0) (L "bc")).
Theorem C102_longest_word_refuted : exists r tab root g x rest, compiles cs0 ex_opt r tab root /\ gram_of ex_opt = Some g /\ sharing_ok r /\ productive [] g
  /\ takes tab root (lit "abd") (Err x) rest /\ rest = lit "d" /\ language g (lit "a").
Proof.
  destruct (run_takes ex_opt (lit "abd") (Err (BadString (LC 1 2) (lit "bd") (lit "bc"))) (lit "d")) as (r & tab & root & H1 & H2); [vm_compute; reflexivity | discriminate |].
  exists r, tab, root. eexists. eexists. eexists. split; [exact H1 |]. split; [reflexivity |].
  split. { destruct H1 as [E _]. vm_compute in E. injection E as <-. apply sharing_okb_ok. vm_compute. reflexivity. }
  assert (P : forall s env, productive env (GLit s)) by (intros s env; split; [exists s; reflexivity | exact Logic.I]).
  assert (W : language (GCat [GLit (lit "a"); GAlt [GEps; GLit (lit "bc")]]) (lit "a")).
  { exists (lit "a"), []. split; [reflexivity |]. split; [reflexivity |]. exists [], []. split; [reflexivity |]. split; [now left | reflexivity]. }
  split; [| split; [exact H2 | split; [reflexivity | exact W]]].
  split; [exists (lit "a"); exact W |]. split; [apply P |]. split; [| exact Logic.I]. split; [exists []; now left |].
  split; [split; [exists []; reflexivity | exact Logic.I] |]. split; [apply P | exact Logic.I].
Qed.
Print Assumptions C102_longest_word_refuted.
Example C102_ex_short : exists r tab root t, compiles cs0 ex_opt r tab root /\ takes tab root (lit "adx") (Ok t) (lit "dx") /\ yield t = lit "a".
Proof. destruct (run_takes ex_opt (lit "adx") (Ok (NCat [NLit (lit "a"); NAlt 0 NEps])) (lit "dx")) as (r & tab & root & H1 & H2); [vm_compute; reflexivity | discriminate |]. exists r, tab, root. eauto. Qed.
Example C102_ex_long : exists r tab root t, compiles cs0 ex_opt r tab root /\ takes tab root (lit "abcx") (Ok t) (lit "x") /\ yield t = lit "abc".
Proof. destruct (run_takes ex_opt (lit "abcx") (Ok (NCat [NLit (lit "a"); NAlt 1 (NLit (lit "bc"))])) (lit "x")) as (r & tab & root & H1 & H2); [vm_compute; reflexivity | discriminate |]. exists r, tab, root. eauto. Qed.
