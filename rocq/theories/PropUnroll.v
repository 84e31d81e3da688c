(** * PropUnroll: unrolling a fixed point by hand. *)
From Coq Require Import String.
From Verif Require Import FixFacts SpecSimple SpecScope SpecSyntax ConvertFacts SimpleFacts ReduceMore ReduceFacts StepFacts PropReduce PropNibble Main Examples UnrollFacts PropFix.
From Coq Require Import List.
Open Scope list_scope.

(** ** C90: [!f] and [f (!f)] are accepted together, with the same type *)
Theorem C90_unrolling : forall n a f v g, reduce n (EFix a f) = Ok v -> gram_of v = Some g -> closed_below 0 g -> single (erase v) ->
  exists m v' g', reduce m (ECall a f [EFix a f]) = Ok v' /\ gram_of v' = Some g' /\
    ((exists r, typecheck v = Ok r) <-> (exists r', typecheck v' = Ok r')) /\
    (forall r r', typecheck v = Ok r -> typecheck v' = Ok r' -> get_type r' = get_type r).
Proof.
  intros n a f v g Hr Hg Hc Hs. pose proof (C40_sound _ _ _ Hr) as H. cbn [erase] in H.
  pose proof Hg as Hl. rewrite gram_of_lgram in Hl.
  assert (exists gb, g = GFix gb) as [gb ->].
  { pose proof H as He. apply (evals_grammar _ _ _ Hl) in He. inversion He as [| | | | | | e k b b' Hf Hb | e w Hf Hv | |]; subst.
    - rewrite <- H1 in Hl. cbn in Hl. destruct (lgram b') as [gb|]; [|discriminate]. injection Hl as <-. eauto.
    - rewrite <- H1 in Hl. destruct w; try discriminate Hl. discriminate Hv. }
  destruct (fix_unrolls _ _ gb H Hl Hs Hc) as (w' & H1 & H2).
  destruct (C43_unique (ECall a f [EFix a f]) w' _ H1 H2) as ((m & v' & Hm) & U & _).
  assert (Hg' : gram_of v' = Some (gsub 0 (GFix gb) gb)) by now apply (U m v').
  exists m, v', (gsub 0 (GFix gb) gb). split; [exact Hm|]. split; [exact Hg'|]. split.
  - rewrite !typecheck_accepts. split.
    + intros (g & s & Eg & Ht). rewrite Hg in Eg. injection Eg as <-.
      destruct (unrolled_accepted gb) as [s' Ht']; eauto.
    + intros (g & s & Eg & Ht). rewrite Hg' in Eg. injection Eg as <-.
      destruct (rolled_accepted gb Hc) as [s' Ht']; eauto.
  - intros r r' E E'. eapply unrolled_type; eauto.
Qed.
Print Assumptions C90_unrolling.

(** An accepted fixed point has no free variables, so nothing else need be
    assumed of it. *)
Corollary C90_accepted : forall n a f v r, reduce n (EFix a f) = Ok v -> typecheck v = Ok r -> single (erase v) ->
  exists m v' r', reduce m (ECall a f [EFix a f]) = Ok v' /\ typecheck v' = Ok r' /\ get_type r' = get_type r.
Proof.
  intros n a f v r Hr E Hs. destruct (typecheck_typed v r E) as (g & s & Hg & _ & Ht & _).
  destruct (C90_unrolling n a f v g Hr Hg (proj1 typed_closed _ _ _ Ht) Hs) as (m & v' & g' & Hm & _ & [A _] & B).
  destruct A as [r' E']; [eauto|]. exists m, v', r'. auto.
Qed.
Print Assumptions C90_accepted.

(** [!(list "a")] and [list "a" (!(list "a"))]. *)
Example C90_ex : exists v r v', reduce 20 ex_fixcall = Ok v /\ typecheck v = Ok r /\ single (erase v) /\
  (match ex_fixcall with EFix a f => reduce 20 (ECall a f [EFix a f]) | _ => Panic end) = Ok v' /\
  gram_of v' = Some (GAlt [GCat [GLit (lit "a"); GFix (GAlt [GCat [GLit (lit "a"); GVar 0]; GEps])]; GEps]).
Proof. do 3 eexists. repeat split; vm_compute; try reflexivity; auto. Qed.
