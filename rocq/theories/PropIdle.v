(** * C114: fixed points that do not use their variable. *)
From Coq Require Import String.
From Verif Require Import SpecRewrite FixFacts SpecTyping Erase ReduceMore ReduceFacts StepFacts BetaFacts InferMore RewriteFacts PropReduce PropTyping PropUnroll PropFix PropSame PropRewrite Examples.
From Coq Require Import List.
Open Scope list_scope.

(** [erase d = lren S (erase d0)]: [d] is [d0], under the binder of a variable it
    does not use.  [!(/x/ d)] and [d0] are then accepted together, with the same type. *)
Theorem C114_idle : forall n a c x d d0 v g,
  erase d = lren S (erase d0) -> reduce n (EFix a (ELam c [x] d)) = Ok v -> gram_of v = Some g -> closed_below 0 g -> single (erase v) ->
  exists m v0, reduce m d0 = Ok v0
    /\ ((exists r, typecheck v = Ok r) <-> (exists r, typecheck v0 = Ok r))
    /\ (forall r r0, typecheck v = Ok r -> typecheck v0 = Ok r0 -> get_type r0 = get_type r).
Proof.
  intros n a c x d d0 v g Hd Hr Hg Hc Hs. destruct (C90_unrolling _ _ _ _ _ Hr Hg Hc Hs) as (m & v' & g' & Hm & Hg' & A & T).
  assert (H : rewritten (erase (ECall a (ELam c [x] d) [EFix a (ELam c [x] d)])) (erase d0)).
  { cbn [erase map length]. rewrite Hd. eapply rw_done; [now apply step_beta |]. set (z := LFix _). change (lren S (erase d0)) with (lren (Nat.add (length [z])) (erase d0)). rewrite inst_shift. apply rw_refl. }
  destruct (proj1 (proj1 (C113_rewritten _ _ H) g')) as (k & v0 & R0 & G0); [eauto |]. exists k, v0. split; [exact R0 |].
  pose proof (C77_type_check _ _ _ Hg' G0) as K. split.
  - rewrite A. destruct (typecheck v') as [r | y | |], (typecheck v0) as [r0 | y0 | |]; try contradiction; split; intros [q Q]; try discriminate Q; eauto.
  - intros r r0 E E0. rewrite E0 in K. destruct (typecheck v') as [r' | y | |] eqn:E'; try contradiction. rewrite <- K. now apply T.
Qed.
Print Assumptions C114_idle.
(** And they describe the same texts, whatever the free variables stand for. *)
Theorem C114_language : forall n a c x d d0 v g,
  erase d = lren S (erase d0) -> reduce n (EFix a (ELam c [x] d)) = Ok v -> gram_of v = Some g -> single (erase v) ->
  exists m v0 g0, reduce m d0 = Ok v0 /\ gram_of v0 = Some g0 /\ forall env w, lang_of env g w <-> lang_of env g0 w.
Proof.
  intros n a c x d d0 v g Hd Hr Hg Hs. destruct (C21_unfold _ _ _ _ _ Hr Hg Hs) as (m & v' & g' & Hm & Hg' & L).
  assert (H : rewritten (erase (ECall a (ELam c [x] d) [EFix a (ELam c [x] d)])) (erase d0)).
  { cbn [erase map length]. rewrite Hd. eapply rw_done; [now apply step_beta |]. set (z := LFix _). change (lren S (erase d0)) with (lren (Nat.add (length [z])) (erase d0)). rewrite inst_shift. apply rw_refl. }
  destruct (proj1 (proj1 (C113_rewritten _ _ H) g')) as (k & v0 & R0 & G0); [eauto |]. exists k, v0, g'. split; [exact R0 |]. split; [exact G0 |]. intros env w. apply L.
Qed.
Print Assumptions C114_language.
(** [!(/x/ "a" . ("b" | _))] and ["a" . ("b" | _)]; and a case where both are
    turned down, ["a" | "a"]. *)
Example C114_ex : let f d := EFix a0 (ELam a0 [nvar "x"] d) in let d := cat2 (L "a") (alt2 (L "b") (EEps a0)) in let bad := alt2 (L "a") (L "a") in
  erase d = lren S (erase d) /\ (exists v g, reduce 9 (f d) = Ok v /\ gram_of v = Some g /\ closed_below 0 g /\ single (erase v) /\ is_ok (typecheck v) = true /\ is_ok (typecheck d) = true)
  /\ exists v, reduce 9 (f bad) = Ok v /\ is_ok (typecheck v) = false /\ is_ok (typecheck bad) = false.
Proof.
  split; [reflexivity |]. split; [| eexists; repeat split; vm_compute; reflexivity].
  do 2 eexists. repeat split; try (vm_compute; reflexivity); try (vm_compute; tauto).
Qed.
