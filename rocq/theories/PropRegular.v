(** * PropRegular: every regular language can be written. *)
From Coq Require Import String.
From Verif Require Export RegularFacts Examples.
From Coq Require Import List Lia.
Import ListNotations.
Open Scope list_scope.

(** A grammar written down as an expression. *)
Fixpoint written (g : gram) : nexpr :=
  match g with
  | GEps => EEps a0
  | GLit s => ELit a0 s
  | GVar i => EVar a0 i
  | GCat [] | GAlt [] => EEps a0
  | GCat (x :: l) => ECat a0 (written x) (map (fun y => (0%N, written y)) l)
  | GAlt (x :: l) => EAlt a0 (written x) (map (fun y => (0%N, written y)) l)
  | GFix b => EFix a0 (ELam a0 [nvar "q"] (written b))
  end.
(** No empty concatenation, no empty alternation. *)
Fixpoint nonempty (g : gram) : bool :=
  match g with
  | GCat l | GAlt l => negb (match l with [] => true | _ => false end) && forallb nonempty l
  | GFix b => nonempty b
  | _ => true
  end.
Lemma written_gram : forall g, nonempty g = true -> gram_of (written g) = Some g.
Proof.
  fix P 1. intros [| s | l | l | b | i] H; cbn [nonempty] in H; try reflexivity.
  - destruct l as [| g l]; [discriminate H |]. cbn [negb andb forallb] in H. apply andb_prop in H as [H1 H2]. cbn [written gram_of]. rewrite (P g H1).
    assert (R : all_some (map (fun x => gram_of (snd x)) (map (fun y => (0%N, written y)) l)) = Some l).
    { clear H1. induction l as [| x l IH]; [reflexivity |]. cbn [forallb] in H2. apply andb_prop in H2 as [H3 H4]. cbn [map all_some snd]. rewrite (P x H3), (IH H4). reflexivity. }
    rewrite R. reflexivity.
  - destruct l as [| g l]; [discriminate H |]. cbn [negb andb forallb] in H. apply andb_prop in H as [H1 H2]. cbn [written gram_of]. rewrite (P g H1).
    assert (R : all_some (map (fun x => gram_of (snd x)) (map (fun y => (0%N, written y)) l)) = Some l).
    { clear H1. induction l as [| x l IH]; [reflexivity |]. cbn [forallb] in H2. apply andb_prop in H2 as [H3 H4]. cbn [map all_some snd]. rewrite (P x H3), (IH H4). reflexivity. }
    rewrite R. reflexivity.
  - cbn [written gram_of]. rewrite (P b H). reflexivity.
Qed.
Lemma build_nonempty A (HA : alphabet A <> []) k : forall scope q, nonempty (build A k scope q) = true.
Proof.
  induction k as [| k IH]; intros scope q; destruct (index_of q scope) as [i |] eqn:E.
  1, 3: rewrite (build_old A _ _ _ _ E); reflexivity.
  - cbn [build]. rewrite E. reflexivity.
  - rewrite (build_new A _ _ _ E). cbn [nonempty]. 
    assert (B : forallb nonempty (branches A k scope q) = true).
    { apply forallb_forall. intros g Hg. apply in_app_iff in Hg as [Hg | Hg]; [apply in_map_iff in Hg as (c & <- & _); cbn; now rewrite IH | destruct (final A q); [destruct Hg as [<- | []]; reflexivity | destruct Hg]]. }
    destruct (branches A k scope q) as [| g [| g' l]] eqn:Eb; [| cbn in B; now rewrite Bool.andb_true_r in B | cbn [alts nonempty negb andb]; exact B].
    exfalso. unfold branches in Eb. destruct (alphabet A); [congruence | discriminate Eb].
Qed.

(** C98.  For every finite automaton and every state of it, there is an
    expression that the type checker accepts and whose language is the set of
    the texts the automaton accepts from that state. *)
Theorem C98_regular : forall A q, dfa_ok A -> q < states A ->
  exists e g, (exists r, typecheck e = Ok r) /\ gram_of e = Some g /\ forall w, language g w <-> accepts A q w.
Proof.
  intros A q HA Hq. set (g := build A (states A) [] q). exists (written g), g.
  assert (He : enough A (states A) []). { split; [constructor |]. split; [intros p [] | cbn; lia]. }
  assert (Hg : gram_of (written g) = Some g) by (apply written_gram, build_nonempty, HA).
  split; [| split; [exact Hg |]].
  - apply typecheck_accepts. destruct (build_typed A HA (states A) [] [] q He Hq) as (t & Ht & _); [intros [| i] p H; discriminate H |]. exists g, t. auto.
  - intros w. split.
    + apply (build_sound A HA (states A) [] []); auto. intros [| i] p u H; discriminate H.
    + apply (build_complete A HA (length w) (states A) [] []); auto. intros [| i] p u H; discriminate H.
Qed.

(** An automaton for the texts over a, b whose last character but one is a: no
    regular expression that can be matched by looking one character ahead,
    without counting, denotes this language. *)
Definition ex_a : char := 97%N.
Definition ex_b : char := 98%N.
Definition last_but_one : dfa := DFA 4 [ex_a; ex_b]
  (fun q c => 2 * (q mod 2) + (if N.eqb c ex_a then 1 else 0)) (fun q => Nat.leb 2 q).
Lemma last_but_one_ok : dfa_ok last_but_one.
Proof.
  split; [discriminate |]. split; [repeat constructor; cbn; intuition discriminate |]. intros q c _ _. cbn [states next last_but_one].
  pose proof (PeanoNat.Nat.mod_upper_bound q 2 ltac:(lia)). destruct (N.eqb c ex_a); lia.
Qed.
Lemma last_but_one_lang : forall w, accepts last_but_one 0 w <->
  (Forall (fun c => c = ex_a \/ c = ex_b) w /\ exists u c, w = u ++ [ex_a; c]).
Proof.
  assert (K : forall w q, q < 4 -> accepts last_but_one q w <-> (Forall (fun c => c = ex_a \/ c = ex_b) w /\
    match w with [] => 2 <= q | [c] => q mod 2 = 1 | _ => exists u c, w = u ++ [ex_a; c] end)).
  { induction w as [| c w IH]; intros q Hq.
    - cbn [accepts final last_but_one]. rewrite PeanoNat.Nat.leb_le. split; [auto | tauto].
    - cbn [accepts alphabet last_but_one In]. pose proof (PeanoNat.Nat.mod_upper_bound q 2 ltac:(lia)) as Hm.
      set (p := next last_but_one q c). assert (Hp : p < 4) by (cbv [p next last_but_one]; destruct (N.eqb c ex_a); lia).
      change (accepts (DFA 4 _ _ _) (_ q c) w) with (accepts last_but_one p w). rewrite (IH p Hp). rewrite Forall_cons_iff.
      assert (P1 : p mod 2 = 1 <-> c = ex_a). { unfold p. cbv [next last_but_one]. destruct (N.eqb_spec c ex_a) as [-> | Hc]; rewrite PeanoNat.Nat.add_comm, PeanoNat.Nat.mul_comm, PeanoNat.Nat.mod_add by lia; cbn; [tauto | split; [discriminate | congruence]]. }
      destruct w as [| d [| d' w]].
      + assert (2 <= p <-> q mod 2 = 1) by (unfold p; cbv [next last_but_one]; destruct (N.eqb c ex_a); lia). intuition congruence.
      + rewrite P1. split.
        * intros (Hc & Hd & ->). split; [split; [intuition congruence | exact Hd] | now exists [], d].
        * intros ((Hc & Hd) & u & x & E). split; [intuition congruence |]. split; [exact Hd |]. destruct u as [| y [| y' u]]; [injection E as E _; exact E | discriminate E | destruct u; discriminate E].
      + split.
        * intros (Hc & Hd & u & x & E). split; [split; [intuition congruence | exact Hd] |]. exists (c :: u), x. now rewrite E.
        * intros ((Hc & Hd) & u & x & E). split; [intuition congruence |]. split; [exact Hd |]. destruct u as [| y u]; [discriminate E |]. injection E as _ E. now exists u, x. }
  intros w. rewrite K by lia. destruct w as [| c [| d w]].
  - split; [intros [_ H]; lia | intros (_ & u & c & E); destruct u; discriminate E].
  - split; [intros [_ H]; discriminate H | intros (_ & u & x & E); destruct u as [| y [| y' u]]; discriminate E].
  - reflexivity.
Qed.
Example C98_ex : exists e g, (exists r, typecheck e = Ok r) /\ gram_of e = Some g /\ forall w, language g w <->
  (Forall (fun c => c = ex_a \/ c = ex_b) w /\ exists u c, w = u ++ [ex_a; c]).
Proof.
  destruct (C98_regular last_but_one 0 last_but_one_ok) as (e & g & H1 & H2 & H3); [cbn; lia |]. exists e, g. split; [exact H1 |]. split; [exact H2 |]. intros w. rewrite H3. apply last_but_one_lang.
Qed.
Print Assumptions C98_regular.
