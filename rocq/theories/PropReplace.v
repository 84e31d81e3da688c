(** * PropReplace: programs are checked part by part. *)
From Coq Require Import String.
From Verif Require Import ReplaceFacts PropTyping Examples.
From Coq Require Import List.
Open Scope list_scope.

(** ** C89: parts may be exchanged for parts with smaller types *)
Theorem C89_parts_may_be_refined : forall e e' r, typecheck e = Ok r ->
  replaced (fun x y => exists rx ry, typecheck x = Ok rx /\ typecheck y = Ok ry /\
              (nullable (get_type ry) = true -> nullable (get_type rx) = true) /\
              incl (first_set (get_type ry)) (first_set (get_type rx)) /\
              incl (flast_set (get_type ry)) (flast_set (get_type rx))) e e' ->
  exists r', typecheck e' = Ok r' /\
    (nullable (get_type r') = true -> nullable (get_type r) = true) /\
    incl (first_set (get_type r')) (first_set (get_type r)) /\
    incl (flast_set (get_type r')) (flast_set (get_type r)).
Proof.
  intros e e' r E Hr. destruct (replaced_typecheck e e' r E Hr) as (r0 & r' & E0 & E' & H).
  exists r'. split; [exact E'|]. assert (r0 = r) by congruence. subst. exact H.
Qed.
Print Assumptions C89_parts_may_be_refined.

(** Parts with the same type are interchangeable: the program is accepted
    before exactly when it is accepted after, with the same type. *)
Theorem C89_same_type_interchangeable : forall e e',
  replaced (fun x y => exists rx ry, typecheck x = Ok rx /\ typecheck y = Ok ry /\ get_type rx = get_type ry) e e' ->
  ((exists r, typecheck e = Ok r) <-> (exists r', typecheck e' = Ok r')) /\
  forall r r', typecheck e = Ok r -> typecheck e' = Ok r' -> get_type r = get_type r'.
Proof.
  intros e e' Hr.
  assert (H1 : replaced fits e e').
  { revert Hr. apply replaced_weaken. intros x y (rx & ry & Ex & Ey & H). exists rx, ry. rewrite H. auto using incl_refl. }
  assert (H2 : replaced fits e' e).
  { revert Hr. apply replaced_flip. intros x y (rx & ry & Ex & Ey & H). exists ry, rx. rewrite H. auto using incl_refl. }
  split; [split|].
  - intros [r E]. destruct (replaced_typecheck e e' r E H1) as (? & r' & _ & E' & _). eauto.
  - intros [r E]. destruct (replaced_typecheck e' e r E H2) as (? & r' & _ & E' & _). eauto.
  - intros r r' E E'. exact (fits_antisym e e' r r' (replaced_typecheck _ _ _ E H1) (replaced_typecheck _ _ _ E' H2) E E').
Qed.
Print Assumptions C89_same_type_interchangeable.

(** The words of a program grow with the words of its parts... *)
Theorem C89_words_grow : forall e e' g,
  replaced (fun x y => exists gx gy, gram_of x = Some gx /\ gram_of y = Some gy /\ closed_below 0 gx /\ closed_below 0 gy /\
              forall w, language gx w -> language gy w) e e' ->
  gram_of e = Some g -> exists g', gram_of e' = Some g' /\ forall w, language g w -> language g' w.
Proof.
  intros e e' g Hr Hg. destruct (proj1 (replaced_words _ (fun x y H => H)) e e' Hr g Hg) as (g' & Hg' & H).
  exists g'. split; [exact Hg'|]. intros w. apply H.
Qed.
Print Assumptions C89_words_grow.

(** ... and accepted parts in which everything has a word, and which have the
    same words, are interchangeable: nothing but the words matters. *)
Theorem C89_same_words_interchangeable : forall e e',
  replaced (fun x y => exists rx ry gx gy, typecheck x = Ok rx /\ typecheck y = Ok ry /\
              gram_of x = Some gx /\ gram_of y = Some gy /\ productive [] gx /\ productive [] gy /\
              forall w, language gx w <-> language gy w) e e' ->
  ((exists r, typecheck e = Ok r) <-> (exists r', typecheck e' = Ok r')) /\
  (forall r r', typecheck e = Ok r -> typecheck e' = Ok r' -> get_type r = get_type r') /\
  (forall g, gram_of e = Some g -> exists g', gram_of e' = Some g' /\ forall w, language g w <-> language g' w).
Proof.
  intros e e' Hr. match type of Hr with replaced ?R _ _ => set (R0 := R) in * end.
  assert (T : forall x y, R0 x y -> exists rx ry, typecheck x = Ok rx /\ typecheck y = Ok ry /\ get_type rx = get_type ry).
  { intros x y (rx & ry & gx & gy & Ex & Ey & Gx & Gy & Px & Py & Hw). exists rx, ry. split; [exact Ex|]. split; [exact Ey|].
    destruct (C61_sets_exact x rx gx Ex Gx Px) as [X1 X2]. destruct (C61_sets_exact y ry gy Ey Gy Py) as [Y1 Y2].
    apply ty_antisym; eauto using typecheck_ok_type.
    - split; [|split].
      + cbn. intros H. apply (typecheck_nullable y ry gy Ey Gy). apply Hw. apply (typecheck_nullable x rx gx Ex Gx). exact H.
      + intros c H. apply Y1. apply X1 in H as [w H]. exists w. apply Hw. exact H.
      + intros c H. apply Y2. apply X2 in H as (u & v & H0 & H & H'). exists u, v. rewrite <- !Hw. auto.
    - split; [|split].
      + cbn. intros H. apply (typecheck_nullable x rx gx Ex Gx). apply Hw. apply (typecheck_nullable y ry gy Ey Gy). exact H.
      + intros c H. apply X1. apply Y1 in H as [w H]. exists w. apply Hw. exact H.
      + intros c H. apply X2. apply Y2 in H as (u & v & H0 & H & H'). exists u, v. rewrite !Hw. auto. }
  assert (C : forall x g, (exists r, typecheck x = Ok r) -> gram_of x = Some g -> closed_below 0 g).
  { intros x g [r E] Hg. destruct (typecheck_typed x r E) as (g' & s & Hg' & _ & Ht & _).
    rewrite Hg in Hg'. injection Hg' as <-. exact (proj1 typed_closed _ _ _ Ht). }
  destruct (C89_same_type_interchangeable e e') as [A B].
  { revert Hr. apply replaced_weaken. exact T. }
  split; [exact A|]. split; [exact B|]. intros g Hg.
  destruct (C89_words_grow e e' g) as (g' & Hg' & L1); [|exact Hg|].
  { revert Hr. apply replaced_weaken. intros x y (rx & ry & gx & gy & Ex & Ey & Gx & Gy & Px & Py & Hw).
    exists gx, gy. repeat split; eauto. intros w. apply Hw. }
  exists g'. split; [exact Hg'|]. intros w. split; [apply L1|].
  destruct (C89_words_grow e' e g') as (g2 & Hg2 & L2); [|exact Hg'|].
  { revert Hr. apply replaced_flip. intros x y (rx & ry & gx & gy & Ex & Ey & Gx & Gy & Px & Py & Hw).
    exists gy, gx. repeat split; eauto. intros v. apply Hw. }
  rewrite Hg in Hg2. injection Hg2 as <-. apply L2.
Qed.
Print Assumptions C89_same_words_interchangeable.

(** Inside [!(/r/ "a" . r . "b" | X)], the part [X = "c" . "d"] may be
    exchanged for [X = "cd"]: the types are the same. *)
Definition ctx_of (x : nexpr) : nexpr := fix1 "r" (alt2 (ECat a0 (L "a") [(0%N, V 0); (0%N, L "b")]) x).
Example C89_ex : (exists r, typecheck (ctx_of (cat2 (L "c") (L "d"))) = Ok r) /\
  replaced (fun x y => exists rx ry, typecheck x = Ok rx /\ typecheck y = Ok ry /\ get_type rx = get_type ry)
    (ctx_of (cat2 (L "c") (L "d"))) (ctx_of (L "cd")) /\
  ctx_of (cat2 (L "c") (L "d")) <> ctx_of (L "cd").
Proof.
  split; [|split].
  - eexists. vm_compute. reflexivity.
  - apply rep_fix, rep_alt; [apply rep_same|]. apply rep_cons; [|apply rep_nil]. apply rep_here.
    eexists. eexists. split; [vm_compute; reflexivity|]. split; [vm_compute; reflexivity|]. vm_compute. reflexivity.
  - discriminate.
Qed.
(** A part with a bigger type may not be: ["c"] for [_ | "c"] is fine, the
    converse is not. *)
Example C89_ex_bigger : (exists r, typecheck (cat2 (L "c") (L "a")) = Ok r) /\
  ~ exists r, typecheck (cat2 (alt2 (EEps a0) (L "c")) (L "a")) = Ok r.
Proof. split; [eexists; vm_compute; reflexivity|]. intros [r H]. vm_compute in H. discriminate. Qed.
