(** * C111: the order of alternatives and parentheses. *)
From Coq Require Import String.
From Verif Require Import SpecArrange SpecTyping SpecKeep Erase TypeFacts InferMore ReplaceFacts ArrangeFacts LangFacts SpecDefect PropDefect PropTyping PropReplace Examples.
From Coq Require Import List.
Open Scope list_scope.

Lemma least_le e e' r r' g g' : gram_of e = Some g -> gram_of e' = Some g' -> (forall G t, tyd G g t -> tyd G g' t) -> typecheck e = Ok r -> typecheck e' = Ok r' -> st_le (st_of (get_type r')) (st_of (get_type r)).
Proof.
  intros Hg Hg' H E E'. destruct (typecheck_typed e r E) as (g0 & s & H0 & _ & Ht & Hs). rewrite Hg in H0. injection H0 as <-.
  destruct (H [] (st_of (get_type r))) as (s' & S1 & S2); [exists s; split; [exact Ht | now apply st_eq_sym] |].
  destruct (C15_inferred_type_is_least e' _ _ _ r' reach_empty E') as (g0 & s0 & H0 & _ & _ & L). rewrite Hg' in H0. injection H0 as <-.
  destruct (L s' S1) as (L1 & L2 & L3), S2 as [_ (K1 & K2 & K3)]. split; [auto |]. split; auto.
Qed.

(** C111.  However the alternatives are ordered and parentheses put around
    alternatives and around fronts of sequences: accepted before exactly if
    accepted after, with the same type and the same words. *)
Theorem C111_rearranged : forall e e' g g', gram_of e = Some g -> gram_of e' = Some g' -> rearranged g g' ->
  ((exists r, typecheck e = Ok r) <-> (exists r', typecheck e' = Ok r'))
  /\ (forall r r', typecheck e = Ok r -> typecheck e' = Ok r' -> get_type r = get_type r')
  /\ (forall w, language g w <-> language g' w).
Proof.
  intros e e' g g' Hg Hg' H. destruct (rearranged_sim g g' H) as [H1 H2]. split; [| split].
  - rewrite !C14_program. split; intros (g0 & s & H0 & Ht).
    + rewrite Hg in H0. injection H0 as <-. destruct (H1 [] s) as (s' & S & _); [exists s; split; [exact Ht | apply st_eq_refl] |]. eauto.
    + rewrite Hg' in H0. injection H0 as <-. destruct (H2 [] s) as (s' & S & _); [exists s; split; [exact Ht | apply st_eq_refl] |]. eauto.
  - intros r r' E E'. pose proof (least_le e e' r r' g g' Hg Hg' H1 E E') as (A1 & A2 & A3). pose proof (least_le e' e r' r g' g Hg' Hg H2 E' E) as (B1 & B2 & B3).
    apply (fits_antisym e e' r r'); [exists r, r' | exists r', r | exact E | exact E']; auto.
  - intros w. exact (rearranged_words g g' H [] w).
Qed.
Print Assumptions C111_rearranged.
(** Parentheses around any part of a sequence may be removed, and what follows
    alternatives may be written after each. *)
Theorem C111_loosened : forall e e' r g g', typecheck e = Ok r -> gram_of e = Some g -> gram_of e' = Some g' -> loosened g g' ->
  (exists r', typecheck e' = Ok r') /\ (forall w, language g w <-> language g' w).
Proof.
  intros e e' r g g' E Hg Hg' H. split.
  - rewrite C14_program. destruct (typecheck_typed e r E) as (g0 & s & H0 & _ & Ht & _). rewrite Hg in H0. injection H0 as <-. destruct (loosened_sim g g' H [] s) as (s' & S & _); [exists s; split; [exact Ht | apply st_eq_refl] |]. eauto.
  - intros w. exact (loosened_words g g' H [] w).
Qed.
Print Assumptions C111_loosened.
(** They may not be added: ["a" . (_ | "b") . "c"] is accepted,
    ["a" . ((_ | "b") . "c")] is not. *)
Theorem C111_tightened_refuted : exists e e' r x g g', gram_of e = Some g /\ gram_of e' = Some g' /\ loosened g' g /\ typecheck e = Ok r /\ typecheck e' = Err x.
Proof.
  exists (cat3 (L "a") (alt2 (EEps a0) (L "b")) (L "c")), (cat2 (L "a") (cat2 (alt2 (EEps a0) (L "b")) (L "c"))). do 4 eexists. split; [reflexivity |]. split; [reflexivity |]. split; [| split; vm_compute; reflexivity].
  exact (lo_group [GLit (lit "a")] [GAlt [GEps; GLit (lit "b")]; GLit (lit "c")] [] ltac:(discriminate)).
Qed.
Print Assumptions C111_tightened_refuted.
(** [!(/r/ ("a" . r) . "b" | ("c" | _))] and [!(/r/ _ | "c" | "a" . r . "b")]. *)
Example C111_ex : exists e e' r r' g g', gram_of e = Some g /\ gram_of e' = Some g' /\ rearranged g g' /\ g <> g' /\ typecheck e = Ok r /\ typecheck e' = Ok r'.
Proof.
  exists (fix1 "r" (alt2 (cat2 (cat2 (L "a") (V 0)) (L "b")) (alt2 (L "c") (EEps a0)))), (fix1 "r" (EAlt a0 (EEps a0) [(0%N, L "c"); (0%N, cat3 (L "a") (V 0) (L "b"))])). do 4 eexists.
  split; [reflexivity |]. split; [reflexivity |]. split; [| split; [discriminate | split; vm_compute; reflexivity]].
  apply re_in_fix. set (a := GLit (lit "a")). set (b := GLit (lit "b")). set (c := GLit (lit "c")).
  apply (re_trans _ (GAlt [GCat [a; GVar 0; b]; GAlt [c; GEps]])); [exact (re_in_alt [] _ _ [GAlt [c; GEps]] (re_group_front [a; GVar 0] [b] ltac:(discriminate))) |].
  apply (re_trans _ (GAlt [GCat [a; GVar 0; b]; c; GEps])); [exact (re_group_alt [GCat [a; GVar 0; b]] [c; GEps] [] ltac:(discriminate)) |].
  apply re_order. exact (Permutation_rev [GCat [a; GVar 0; b]; c; GEps]).
Qed.
(** [("a" | "b") . "c"] and ["a" . "c" | "b" . "c"]. *)
Example C111_loosened_ex : exists e e' r g g', typecheck e = Ok r /\ gram_of e = Some g /\ gram_of e' = Some g' /\ loosened g g' /\ language g' (lit "bc").
Proof.
  exists (cat2 (alt2 (L "a") (L "b")) (L "c")), (alt2 (cat2 (L "a") (L "c")) (cat2 (L "b") (L "c"))). do 3 eexists. split; [vm_compute; reflexivity |]. split; [reflexivity |]. split; [reflexivity |].
  split; [exact (lo_spread [GLit (lit "a"); GLit (lit "b")] [GLit (lit "c")] ltac:(discriminate)) |]. apply alts_words. exists (GCat [GLit (lit "b"); GLit (lit "c")]). split; [right; now left |]. exists (lit "b"), (lit "c"). split; [reflexivity |]. split; [reflexivity |]. exists (lit "c"), []. split; [reflexivity |]. split; reflexivity.
Qed.
(** A common front has to be taken out: two alternatives that begin with the same
    part are never accepted, if there are words of them. *)
Theorem C111_common_front : forall e l a n m n' k, gram_of e = Some (GAlt (l ++ GCat (a :: n) :: m ++ GCat (a :: n') :: k)) ->
  (exists w, language (GCat (a :: n)) w) -> (exists w, language (GCat n') w) -> exists x, typecheck e = Err x.
Proof.
  intros e l a n m n' k Hg [w (u & v & -> & Hu & Hv)] [v' Hv']. destruct (typecheck_total e) as [H1 H2]. destruct (typecheck e) as [r | x | |] eqn:E; [exfalso | eauto | now elim H2 | now elim H1].
  apply (C81_accepted_has_no_defect e r _ E Hg). destruct u as [| c u].
  - apply (defect_in_alt [] _ (GCat (a :: n))); [apply in_or_app; right; now left |]. now apply defect_nullable.
  - eapply (defect_start [] l (GCat (a :: n)) m (GCat (a :: n')) k c (u ++ v) (u ++ v')); apply cat_words; [exists (c :: u), v | exists (c :: u), v']; (split; [reflexivity |]); (split; [exact Hu |]); [exact Hv | exact Hv'].
Qed.
Print Assumptions C111_common_front.
Example C111_common_front_ex : is_ok (typecheck (cat2 (L "a") (alt2 (L "b") (L "c")))) = true /\ is_ok (typecheck (alt2 (cat2 (L "a") (L "b")) (cat2 (L "a") (L "c")))) = false.
Proof. split; vm_compute; reflexivity. Qed.
