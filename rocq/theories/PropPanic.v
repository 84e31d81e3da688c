(** * PropPanic: which generated parsers can panic (C25). *)
From Coq Require Import String.
From Verif Require Import PanicFacts PropViable Examples.
From Verif Require Import EmitFacts PropGen.
From Coq Require Import List Lia.
Open Scope list_scope.

(** The literals of a grammar. *)
Fixpoint literals (g : gram) : list rstr :=
  match g with
  | GLit s => [s]
  | GCat l | GAlt l => flat_map literals l
  | GFix i => literals i
  | GEps | GVar _ => []
  end.
Lemma literals_t e : literals (gram_of_t e) = t_lits e.
Proof.
  induction e using texpr_ind'; cbn; auto.
  all: induction H as [| x l Hx _ IH]; cbn; [reflexivity | now rewrite Hx, IH].
Qed.
Lemma ascii_dec s : {ascii s} + {~ ascii s}.
Proof. apply Forall_dec. intros c. destruct (N.ltb c 128) eqn:E; [left; now apply N.ltb_lt | right; apply N.ltb_ge in E; lia]. Qed.

(** ** C25 *)
(** A generated parser of a grammar whose sub-grammars have words panics on
    some text exactly if some literal has a character beyond ASCII before its
    last one. *)
Theorem C25_panics_iff : forall cs e r tab root g, compiles cs e r tab root -> gram_of e = Some g -> sharing_ok r -> productive [] g ->
  (exists s, parses tab root s Panic) <-> exists w, In w (literals g) /\ ~ ascii (removelast w).
Proof.
  intros cs e r tab root g H Hg Hs Hp. pose proof H as [E Hgen].
  destruct (typecheck_typed e r E) as (g' & ty & Hg' & Hr & _). rewrite Hg in Hg'. injection Hg' as <-. subst g. rewrite literals_t. split.
  - intros [s Hpan]. destruct (Exists_dec (fun w => ~ ascii (removelast w)) (t_lits r)) as [X | X].
    { intros w. destruct (ascii_dec (removelast w)); [right; tauto | left; assumption]. }
    + apply Exists_exists in X as (w & H1 & H2). eauto.
    + exfalso. destruct (C25_no_panic _ _ _ _ _ s H) as [[v K] | [x K]]; [| pose proof (parses_fun _ _ _ _ _ Hpan K) as Y; discriminate Y ..].
      intros w Hw. destruct (ascii_dec (removelast w)) as [K | K]; [exact K |]. elim X. apply Exists_exists. eauto.
  - intros (w & Hw & Ha). pose proof (compiles_inhabited _ _ _ _ _ _ H Hg Hs Hp) as Hinh.
    destruct (compiles_table _ _ _ _ _ H) as (m & _ & Hroot & Hgood & _ & Hreach & Hl). assert (Hf : forall id, id < length tab -> flat_ok tab (tau m) id) by (intros id Hid; apply Hgood; exact Hid).
    assert (K : exists i cv, def_of tab i = Some (DLit w cv)).
    { destruct Hgen as (b & Hgen & ->). apply gen_total in Hgen. fold (generate (ShareFacts.total cs) r) in Hgen. apply (generate_repr (ShareFacts.total cs) r Hs) in Hgen; [| exact (typecheck_wt _ _ E) | apply total_names].
      eapply repr_lits; eauto. }
    destruct K as (i & cv & Hd). pose proof (lit_can_panic tab _ Hf i w cv Hd Ha) as Hi.
    assert (Hlt : i < length tab) by (eapply def_lt; eauto).
    assert (C : forall x y, reach tab x y -> can_panic tab (tau m) y -> can_panic tab (tau m) x).
    { intros x y Hxy. induction Hxy as [x | x y z en Hi' Hj _ IH]; [auto |]. intros Hz. assert (Hx : x < length tab) by (apply nth_error_Some; congruence).
      destruct (Hgood x Hx) as (_ & _ & _ & Hdp). unfold deps_ok in Hdp. rewrite Hi' in Hdp. apply Hdp in Hj.
      assert (Hy : In y (mentions tab x)) by (unfold contains in Hj; destruct (def_of tab x) as [[]|]; auto; contradiction).
      eapply panic_up; eauto. }
    destruct (C root i (Hreach i Hlt) Hi) as (c & x & _ & K). destruct (K [] (iw_new (c :: x)) (at_cursor_new _)) as [fuel Hfuel].
    exists (c :: x). split; [discriminate |]. exists fuel. intros f Hle. specialize (Hfuel f Hle). rewrite parse_take. destruct (take tab f root (iw_new (c :: x))) as [y st]. cbn in Hfuel. now subst y.
Qed.
Print Assumptions C25_panics_iff.
(** ["é" . ("b" | "aéc")]: the last literal is the one that matters. *)
Definition ex_panic : nexpr := cat2 (ELit a0 [233%N]) (alt2 (L "b") (ELit a0 [97; 233; 99]%N)).
Example C25_ex_panics : exists r tab root g, compiles cs0 ex_panic r tab root /\ gram_of ex_panic = Some g /\ sharing_ok r /\ productive [] g
  /\ parses tab root [233; 98]%N (Ok (NCat [NLit [233%N]; NAlt 0 (NLit (lit "b"))])) /\ parses tab root [233; 97; 233; 98]%N Panic.
Proof.
  destruct (run_parses ex_panic [233; 98]%N (Ok (NCat [NLit [233%N]; NAlt 0 (NLit (lit "b"))]))) as (r & tab & root & H1 & H2); [vm_compute; reflexivity | discriminate |].
  destruct (run_parses ex_panic [233; 97; 233; 98]%N Panic) as (r' & tab' & root' & H1' & H2'); [vm_compute; reflexivity | discriminate |].
  assert (r' = r /\ tab' = tab /\ root' = root) as (-> & -> & ->). { destruct H1 as [E (b & G & ->)], H1' as [E' (b' & G' & ->)]. rewrite E in E'. injection E' as <-. rewrite G in G'. injection G' as <- <-. auto. }
  exists r, tab, root. eexists. split; [exact H1 |]. split; [reflexivity |].
  split. { destruct H1 as [E _]. vm_compute in E. injection E as <-. apply sharing_okb_ok. vm_compute. reflexivity. }
  assert (P : forall s env, productive env (GLit s)) by (intros s env; split; [exists s; reflexivity | exact Logic.I]).
  split; [| auto]. split. { exists [233; 98]%N, [233%N], [98%N]. split; [reflexivity |]. split; [reflexivity |]. exists [98%N], []. split; [reflexivity |]. split; [now left | reflexivity]. }
  split; [apply P |]. split; [| exact Logic.I]. split; [exists (lit "b"); now left |]. split; [apply P |]. split; [apply P | exact Logic.I].
Qed.
