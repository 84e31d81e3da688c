(** * PropSame: names and positions do not matter (C77).

    Vocabulary: [gram_of] (Erase: the grammar of an expression, without names
    and positions), [typecheck] (Infer), [compiles], [parses] (PropGen: code is
    generated; what the generated parser returns), [chomp] (Main: src/main.rs),
    [stands_for] (PropMain: the grammar of a program), [own_fixes], [sharing_ok]
    (SpecSharing), [same_type_error], [same_res] (SameFacts: errors with equal
    contents up to names and positions). *)
From Coq Require Import String.
From Verif Require Import Main ConvertFacts StepFacts Examples PropGen PropReduce PropMain PropNibble SameFacts.
From Coq Require Import List Lia.
Open Scope list_scope.

(** ** C77: the grammar decides *)
(** Two expressions for one grammar type check alike: both are accepted, with
    the same types, or both are rejected for the same reason. *)
Theorem C77_type_check : forall e e' g, gram_of e = Some g -> gram_of e' = Some g ->
  match typecheck e, typecheck e' with
  | Ok r, Ok r' => get_type r = get_type r'
  | Err x, Err x' => same_type_error x x'
  | _, _ => False
  end.
Proof.
  intros e e' g H H'. pose proof (typecheck_gram e e' g H H') as S. destruct (typecheck_total e) as [T1 T2]. destruct (typecheck e), (typecheck e'); cbn in S; auto; try contradiction. unfold same_typed in S. apply (f_equal get_type) in S. now rewrite !shape_type in S.
Qed.
(** And the generated parsers return the same: the same tree, the same error at
    the same position, or both panic. *)
Theorem C77_same_parser : forall cs cs' e e' r r' tab tab' root root' g,
  compiles cs e r tab root -> compiles cs' e' r' tab' root' -> gram_of e = Some g -> gram_of e' = Some g -> sharing_ok r -> sharing_ok r' ->
  forall input x, parses tab root input x <-> parses tab' root' input x.
Proof.
  intros cs cs' e e' r r' tab tab' root root' g [T (b & G & ->)] [T' (b' & G' & ->)] Hg Hg' S S' input x.
  pose proof (typecheck_gram e e' g Hg Hg') as Hs. rewrite T, T' in Hs. cbn in Hs. unfold same_typed in Hs.
  pose proof (generated_same cs cs' r r' b b' root root' (typecheck_wt _ _ T) (typecheck_wt _ _ T') S S' Hs G G') as Ht.
  assert (P : forall fuel, parse_str (data b) fuel root input = parse_str (data b') fuel root' input) by (intros fuel; now rewrite !parse_take, Ht).
  unfold parses. split; (intros [Hx [f Hf]]; split; [exact Hx |]; exists f; intros f' Hf'); [rewrite <- P | rewrite P]; now apply Hf.
Qed.
(** So for whole programs. *)
Theorem C77_programs : forall join join' cs cs' fuel fuel' s s' g tab tab' root root' out out', wf_stmt s -> wf_stmt s' ->
  chomp join cs fuel (stmt_tokens s) = Ok (tab, root, out) -> chomp join' cs' fuel' (stmt_tokens s') = Ok (tab', root', out') ->
  stands_for s g -> stands_for s' g -> own_fixes g ->
  forall input x, parses tab root input x <-> parses tab' root' input x.
Proof.
  intros join join' cs cs' fuel fuel' s s' g tab tab' root root' out out' Hw Hw' E E' Hg Hg' Ho.
  assert (K : forall join cs fuel s tab root out, wf_stmt s -> chomp join cs fuel (stmt_tokens s) = Ok (tab, root, out) -> stands_for s g ->
    exists v r, compiles cs v r tab root /\ gram_of v = Some g /\ sharing_ok r).
  { clear - Ho. intros join cs fuel s tab root out Hw E (e0 & w & Hm & Hst & Hl). destruct (chomp_inv _ _ _ _ _ _ _ E) as (s1 & e & v & r & Ep & Ec & Er & Et & Hc).
    rewrite (proj2 (C53_parse_print _ s) (conj Hw eq_refl)) in Ep. injection Ep as <-. assert (Hm' : means_stmt [] s (erase e)) by (apply (C47_scoping join s _ Hw); eauto).
    pose proof (means_stmt_fun _ _ _ _ Hm Hm') as ->. destruct (C43_unique e w g Hst Hl) as (_ & U & _). destruct (U fuel v Er) as [_ Hg].
    exists v, r. split; [exact Hc |]. split; [exact Hg |]. apply own_sharing. destruct (typecheck_typed v r Et) as (g1 & t & Hg1 & Hr & _). congruence. }
  destruct (K _ _ _ _ _ _ _ Hw E Hg) as (v & r & C & G & S). destruct (K _ _ _ _ _ _ _ Hw' E' Hg') as (v' & r' & C' & G' & S').
  exact (C77_same_parser _ _ _ _ _ _ _ _ _ _ _ C C' G G' S S').
Qed.
(** Without the condition on sharing, a label can change what is accepted: here
    it separates the two inner fixed points of C30's example. *)
Definition ex_relabel : nexpr :=
  alt2 (ex_share_half "l" "p") (cat2 (L "r") (fix1 "a" (alt2 (cat2 (L "x") (L "s")) (cat2 (L "q") (set_name (Some (nlabel "k")) ex_share_inner))))).
Theorem C77_labels_refuted : exists r tab root r' tab' root' g, compiles cs0 ex_share r tab root /\ compiles cs0 ex_relabel r' tab' root'
  /\ gram_of ex_share = Some g /\ gram_of ex_relabel = Some g
  /\ (exists v, parses tab root (lit "rq2xp") (Ok v)) /\ exists x, parses tab' root' (lit "rq2xp") (Err x).
Proof.
  assert (Hrun : forall tab root s x, parse_str tab 50 root s = x -> x <> OutOfFuel -> parses tab root s x).
  { intros tab root s x E Hn. subst x. apply parses_run. exact Hn. }
  do 7 eexists. split; [split; [vm_compute; reflexivity | eexists; split; [vm_compute; reflexivity | reflexivity]] |].
  split; [split; [vm_compute; reflexivity | eexists; split; [vm_compute; reflexivity | reflexivity]] |]. split; [reflexivity |]. split; [reflexivity |].
  split; eexists; (apply Hrun; [vm_compute; reflexivity | discriminate]).
Qed.
Print Assumptions C77_type_check.
Print Assumptions C77_same_parser.
Print Assumptions C77_programs.
Print Assumptions C77_labels_refuted.
(** Two expressions with different names for the grammar of C22's example. *)
Definition ex_renamed : nexpr := set_name (Some (nlabel "other")) ex_nested.
Example C77_ex : exists r tab root r' tab' root' g, compiles cs0 ex_nested r tab root /\ compiles cs0 ex_renamed r' tab' root'
  /\ gram_of ex_nested = Some g /\ gram_of ex_renamed = Some g /\ sharing_ok r /\ sharing_ok r' /\ tab <> tab'.
Proof.
  do 7 eexists. split; [split; [vm_compute; reflexivity | eexists; split; [vm_compute; reflexivity | reflexivity]] |].
  split; [split; [vm_compute; reflexivity | eexists; split; [vm_compute; reflexivity | reflexivity]] |]. split; [reflexivity |]. split; [reflexivity |].
  split; [apply sharing_okb_ok; vm_compute; reflexivity |]. split; [apply sharing_okb_ok; vm_compute; reflexivity |]. vm_compute. discriminate.
Qed.
