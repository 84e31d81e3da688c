(** * ArithSound: the hand-written arithmetic parser, soundness and termination. *)
From Coq Require Import String ZArith.
From Verif Require Export ArithFacts.
From Coq Require Import List Lia.
Open Scope list_scope.
Local Opaque Z.pow.

(** ** Soundness and termination *)
Definition fine (x : res Z take_error * iw) (P : rstr -> option Z -> Prop) (w0 u r : rstr) : Prop :=
  match fst x with
  | Ok z => exists w r', r = w ++ r' /\ P (w0 ++ w) (Some z) /\ at_cursor (u ++ w) r' (snd x)
  | Panic => exists w r' q, r = w ++ r' /\ P (w0 ++ w ++ q) None
  | Err _ => True
  | OutOfFuel => False
  end.

Section Sound.
  Variable k : bool.
  Notation C := (machine k).
  Lemma decimal_app a b : forall acc, decimal C acc (a ++ b) = decimal C (decimal C acc a) b.
  Proof. induction a as [| c a IH]; intros acc; [reflexivity |]. apply IH. Qed.
  Lemma take_number_sound n : forall w0 out u r st, at_cursor u r st -> length r < n -> Forall is_digit w0 ->
    (match out with Some x => w0 <> [] /\ decimal C (Some 0%Z) w0 = Some x | None => w0 = [] end) ->
    fine (take_number k n out st) (Number C) w0 u r.
  Proof.
    induction n as [| n IH]; intros w0 out u r st Ha Hn Hw Ho; [lia |]. cbn [take_number]. destruct (peek_as _ _ _ Ha) as (st1 & -> & A1).
    assert (Hdone : forall x, out = Some x -> fine (Ok x, st1) (Number C) w0 u r).
    { intros x ->. destruct Ho as [H1 H2]. cbn. exists [], r. split; [reflexivity |]. rewrite !app_nil_r. split; [| exact A1]. rewrite <- H2. now constructor. }
    destruct r as [| c r]; cbn [hd_error].
    - destruct out; [now apply Hdone | exact Logic.I].
    - destruct (digit_of c) as [d |] eqn:Ed.
      + apply digit_of_some in Ed as [Hc ->]. destruct (consume_char _ _ _ _ A1) as [E1 A2]. rewrite (then_ok _ _ _ E1), push_machine.
        assert (Ed : decimal C (Some 0%Z) (w0 ++ [c]) = op2 (c_add C) (op2 (c_mul C) (Some (match out with Some x => x | None => 0%Z end)) (Some 10%Z)) (Some (digit_value c))).
        { rewrite decimal_app. destruct out as [x |]; [destruct Ho as [_ ->] | subst w0]; reflexivity. }
        rewrite <- Ed. destruct (decimal C (Some 0%Z) (w0 ++ [c])) as [y |] eqn:Ey; cbn [or_panic].
        * unfold then_ at 1. cbn [fst snd].
          assert (Hi := IH (w0 ++ [c]) (Some y) _ _ _ A2). specialize (Hi ltac:(cbn in Hn; lia)).
          specialize (Hi ltac:(apply Forall_app; auto)). assert (Hw0 : w0 ++ [c] <> []) by (clear; destruct w0; discriminate). specialize (Hi (conj Hw0 Ey)).
          unfold fine in *. destruct (fst (take_number _ _ _ _)) as [z | | |]; auto.
          -- destruct Hi as (w & r' & -> & H1 & H2). exists (c :: w), r'. split; [reflexivity |]. rewrite <- app_assoc in H1, H2. auto.
          -- destruct Hi as (w & r' & q & -> & H1). exists (c :: w), r', q. split; [reflexivity |]. rewrite <- app_assoc in H1. auto.
        * exists [c], r, []. split; [reflexivity |]. rewrite app_nil_r. rewrite <- Ey. constructor; [clear; destruct w0; discriminate | apply Forall_app; auto].
      + destruct out; [now apply Hdone | exact Logic.I].
  Qed.

  (** Operands and the loops over them. *)
  Definition sound (operand : iw -> res Z take_error * iw) (P : rstr -> option Z -> Prop) (b : nat) : Prop :=
    forall u r st, at_cursor u r st -> length r <= b -> fine (operand st) P [] u r.
  Lemma operand_sound operand (P Q : rstr -> option Z -> Prop) b c f g loop w0 z u r st :
    sound operand P b -> (forall x y, f x y = g x y) -> at_cursor u (c :: r) st -> length r <= b ->
    (forall s w v, blank s -> P w v -> Q (w0 ++ [c] ++ s ++ w) (op2 g (Some z) v)) ->
    (forall w y u' r' st', at_cursor u' r' st' -> length r' <= length r -> Q w (Some y) -> fine (loop y st') Q w u' r') ->
    fine (operand_run operand c f z loop st) Q w0 u (c :: r).
  Proof.
    intros Hop Hf Ha Hb HQ Hl. unfold operand_run. destruct (consume_char _ _ _ _ Ha) as [E1 A1]. rewrite (then_ok _ _ _ E1).
    destruct (spaces_at _ _ _ A1) as (s & r1 & -> & Hs & _ & A2). rewrite app_length in Hb.
    specialize (Hop _ _ _ A2 ltac:(lia)). unfold fine in Hop. cbn [app] in Hop. unfold then_ at 1.
    destruct (fst (operand _)) as [y | | |] eqn:Eo; auto.
    - destruct Hop as (w & r' & -> & HP & A3). rewrite Hf. specialize (HQ s w (Some y) Hs HP). cbn [op2] in HQ. destruct (g z y) as [x |]; cbn [or_panic].
      + unfold then_ at 1. cbn [fst snd]. specialize (Hl (w0 ++ [c] ++ s ++ w) x _ _ _ A3). rewrite !app_length in Hl. specialize (Hl ltac:(lia) HQ).
        unfold fine in *. destruct (fst (loop _ _)) as [t | | |]; auto.
        * destruct Hl as (w' & r'' & -> & H1 & H2). exists (c :: s ++ w ++ w'), r''. split; [cbn; now rewrite <- !app_assoc |].
          rewrite <- !app_assoc in H1, H2. split; [exact H1 | exact H2].
        * destruct Hl as (w' & r'' & q & -> & H1). exists (c :: s ++ w ++ w'), r'', q. split; [cbn; now rewrite <- !app_assoc |].
          rewrite <- !app_assoc in H1. cbn. rewrite <- !app_assoc. exact H1.
      + cbn. exists (c :: s ++ w), r', []. split; [cbn; now rewrite <- !app_assoc |]. rewrite app_nil_r. exact HQ.
    - destruct Hop as (w & r' & q & -> & HP). specialize (HQ s _ None Hs HP). cbn [op2] in HQ. cbn.
      exists (c :: s ++ w), r', q. split; [cbn; now rewrite <- !app_assoc |]. cbn. rewrite <- !app_assoc. exact HQ.
  Qed.
  Lemma product_loop_sound operand b : sound operand (Term C) b -> forall m w0 z u r st, at_cursor u r st -> length r < m -> length r <= b -> Prod C w0 (Some z) ->
    fine (product_loop k operand m z st) (Prod C) w0 u r.
  Proof.
    intros Hop. induction m as [| m IH]; intros w0 z u r st Ha Hm Hb Hw; [lia |]. cbn [product_loop]. destruct (peek_as _ _ _ Ha) as (st1 & -> & A1).
    assert (Hdone : fine (Ok z, st1) (Prod C) w0 u r) by (exists [], r; rewrite !app_nil_r; auto).
    destruct r as [| c r]; cbn [hd_error]; [exact Hdone |]. cbn in Hm, Hb.
    destruct (N.eqb_spec c (chr "*")) as [-> |]; [| destruct (N.eqb_spec c (chr "/")) as [-> |]; [| exact Hdone]].
    - apply (operand_sound operand (Term C) (Prod C) b (chr "*") (i64_mul k) (c_mul C)); auto; [apply mul_machine | lia | |].
      + intros s w v Hs Ht. now apply (prod_mul C w0 (Some z)).
      + intros w y u' r' st' A' Hr' HQ. apply IH; auto; lia.
    - apply (operand_sound operand (Term C) (Prod C) b (chr "/") i64_div (c_div C)); auto; [apply div_machine | lia | |].
      + intros s w v Hs Ht. now apply (prod_div C w0 (Some z)).
      + intros w y u' r' st' A' Hr' HQ. apply IH; auto; lia.
  Qed.
  Lemma product_sound operand b m : sound operand (Term C) b -> b < m -> sound (take_product k operand m) (Prod C) b.
  Proof.
    intros Hop Hm u r st Ha Hr. unfold take_product. pose proof (Hop u r st Ha Hr) as H. unfold fine in H. unfold then_.
    destruct (fst (operand st)) as [z | | |] eqn:E; auto.
    - destruct H as (w & r' & -> & HP & A). rewrite app_length in Hr. pose proof (product_loop_sound operand b Hop m w z _ r' _ A ltac:(lia) ltac:(lia) (prod_term _ _ _ HP)) as H.
      unfold fine in *. destruct (fst (product_loop _ _ _ _ _)); auto.
      + destruct H as (w' & r'' & -> & H1 & H2). exists (w ++ w'), r''. rewrite <- !app_assoc in *. auto.
      + destruct H as (w' & r'' & q & -> & H1). exists (w ++ w'), r'', q. rewrite <- !app_assoc in *. auto.
    - destruct H as (w & r' & q & -> & HP). exists w, r', q. split; [reflexivity |]. now constructor.
  Qed.
  Lemma expr_loop_sound operand b : sound operand (Prod C) b -> forall m w0 z u r st, at_cursor u r st -> length r < m -> length r <= b -> Expr C w0 (Some z) ->
    fine (expr_loop k operand m z st) (Expr C) w0 u r.
  Proof.
    intros Hop. induction m as [| m IH]; intros w0 z u r st Ha Hm Hb Hw; [lia |]. cbn [expr_loop]. destruct (peek_as _ _ _ Ha) as (st1 & -> & A1).
    assert (Hdone : fine (Ok z, st1) (Expr C) w0 u r) by (exists [], r; rewrite !app_nil_r; auto).
    destruct r as [| c r]; cbn [hd_error]; [exact Hdone |]. cbn in Hm, Hb.
    destruct (N.eqb_spec c (chr "+")) as [-> |]; [| destruct (N.eqb_spec c (chr "-")) as [-> |]; [| exact Hdone]].
    - apply (operand_sound operand (Prod C) (Expr C) b (chr "+") (i64_add k) (c_add C)); auto; [apply add_machine | lia | |].
      + intros s w v Hs Ht. now apply (expr_add C w0 (Some z)).
      + intros w y u' r' st' A' Hr' HQ. apply IH; auto; lia.
    - apply (operand_sound operand (Prod C) (Expr C) b (chr "-") (i64_sub k) (c_sub C)); auto; [apply sub_machine | lia | |].
      + intros s w v Hs Ht. now apply (expr_sub C w0 (Some z)).
      + intros w y u' r' st' A' Hr' HQ. apply IH; auto; lia.
  Qed.
  Lemma expr_sound operand b m : sound operand (Prod C) b -> b < m -> sound (take_expr_of k operand m) (Expr C) b.
  Proof.
    intros Hop Hm u r st Ha Hr. unfold take_expr_of. pose proof (Hop u r st Ha Hr) as H. unfold fine in H. unfold then_.
    destruct (fst (operand st)) as [z | | |] eqn:E; auto.
    - destruct H as (w & r' & -> & HP & A). rewrite app_length in Hr. pose proof (expr_loop_sound operand b Hop m w z _ r' _ A ltac:(lia) ltac:(lia) (expr_prod _ _ _ HP)) as H.
      unfold fine in *. destruct (fst (expr_loop _ _ _ _ _)); auto.
      + destruct H as (w' & r'' & -> & H1 & H2). exists (w ++ w'), r''. rewrite <- !app_assoc in *. auto.
      + destruct H as (w' & r'' & q & -> & H1). exists (w ++ w'), r'', q. rewrite <- !app_assoc in *. auto.
    - destruct H as (w & r' & q & -> & HP). exists w, r', q. split; [reflexivity |]. now constructor.
  Qed.
  Lemma term_sound n : forall b, 2 * b + 2 <= n -> sound (take_term k n) (Term C) b.
  Proof.
    induction n as [| n IH]; intros b Hb u r st Ha Hr; [lia |]. cbn [take_term]. destruct (peek_as _ _ _ Ha) as (st1 & -> & A1).
    (* the trailing spaces *)
    assert (Hend : forall (P : rstr -> option Z -> Prop) x, fine x P [] u r -> (forall w v s, P w v -> blank s -> Term C (w ++ s) v) ->
      fine (then_ x (fun v st2 => (Ok v, spaces st2))) (Term C) [] u r).
    { intros P x Hx HP. unfold fine in *. cbn [app] in *. unfold then_. destruct (fst x) as [z | | |]; auto; cbn [fst snd].
      - destruct Hx as (w & r' & -> & H1 & A2). destruct (spaces_at _ _ _ A2) as (s & r2 & -> & Hs & _ & A3). exists (w ++ s), r2.
        rewrite <- !app_assoc in *. auto.
      - destruct Hx as (w & r' & q & -> & H1). exists w, r', q. split; [reflexivity |]. rewrite <- (app_nil_r (w ++ q)). apply HP; [exact H1 | constructor]. }
    destruct r as [| c r]; cbn [hd_error]; [exact Logic.I |]. cbn in Hr.
    destruct (N.eqb_spec c (chr "-")) as [-> |].
    { apply (Hend (fun w v => exists s w' v', w = lit "-" ++ s ++ w' /\ blank s /\ Number C w' v' /\ v = op1 (c_neg C) v')).
      2: { intros w v s (s1 & w' & v' & -> & Hs1 & Hn & ->) Hs. rewrite <- !app_assoc. now apply term_neg. }
      destruct (consume_char _ _ _ _ A1) as [E1 A2]. change (lit "-") with [chr "-"]. rewrite (then_ok _ _ _ E1).
      destruct (spaces_at _ _ _ A2) as (s & r1 & -> & Hs & _ & A3). rewrite app_length in Hr.
      pose proof (take_number_sound n [] None _ _ _ A3 ltac:(lia) (Forall_nil _) eq_refl) as H. unfold fine in H. cbn [app] in H. unfold then_ at 1.
      destruct (fst (take_number _ _ _ _)) as [z | | |]; auto.
      - destruct H as (w & r' & -> & HN & A4). rewrite neg_machine. destruct (c_neg C z) as [y |] eqn:Ey; cbn [or_panic].
        + exists (chr "-" :: s ++ w), r'. split; [cbn; now rewrite <- app_assoc |]. cbn [fst snd app]. rewrite <- !app_assoc in A4. split; [| exact A4].
          exists s, w, (Some z). repeat split; auto.
        + exists (chr "-" :: s ++ w), r', []. split; [cbn; now rewrite <- app_assoc |]. rewrite app_nil_r. exists s, w, (Some z). repeat split; auto.
      - destruct H as (w & r' & q & -> & HN). exists (chr "-" :: s ++ w), r', q. split; [cbn; now rewrite <- app_assoc |]. cbn.
        exists s, (w ++ q), None. rewrite <- app_assoc. repeat split; auto. }
    destruct (digit_of c) as [d |] eqn:Ed.
    { apply (Hend (Number C)); [| intros; now apply term_num]. apply take_number_sound; auto; cbn; lia. }
    destruct (N.eqb_spec c (chr "(")) as [-> |]; [| exact Logic.I].
    apply (Hend (fun w v => exists s w', w = lit "(" ++ s ++ w' ++ lit ")" /\ blank s /\ Expr C w' v)).
    2: { intros w v s (s1 & w' & -> & Hs1 & Hn) Hs. rewrite <- !app_assoc. now apply term_paren. }
    destruct (consume_char (chr "(") _ _ _ A1) as [E1 A2]. change (lit "(") with [chr "("]. rewrite (then_ok _ _ _ E1).
    destruct (spaces_at _ _ _ A2) as (s & r1 & -> & Hs & _ & A3). rewrite app_length in Hr.
    assert (HE : sound (take_expr_of k (take_product k (take_term k n) n) n) (Expr C) (b - 1)).
    { apply expr_sound; [apply product_sound; [apply IH; lia | lia] | lia]. }
    specialize (HE _ _ _ A3 ltac:(lia)). set (x := take_expr_of _ _ _ _) in *. clearbody x. destruct x as [o st3]. unfold fine in HE. cbn [fst snd app] in HE.
    destruct o as [z | e | |]; try contradiction.
    - destruct HE as (w & r' & -> & HE & A4). unfold then_. destruct (consume_char_cases (chr ")") st3) as (y & Ey & [-> | [e' ->]]).
      + change (lit ")") with [chr ")"]. rewrite Ey. destruct (consume_char_inv _ _ _ _ A4 Ey) as (r2 & -> & A5).
        exists (chr "(" :: s ++ w ++ [chr ")"]), r2. split; [cbn; now rewrite <- !app_assoc |]. cbn [fst snd app].
        rewrite <- !app_assoc in A5. split; [| exact A5]. exists s, w. repeat split; auto.
      + change (lit ")") with [chr ")"]. rewrite Ey. exact Logic.I.
    - unfold then_. destruct (consume_char_cases (chr ")") st3) as (y & Ey & [-> | [e' ->]]); change (lit ")") with [chr ")"]; rewrite Ey; exact Logic.I.
    - destruct HE as (w & r' & q & -> & HE). exists (chr "(" :: s ++ w), r', (q ++ [chr ")"]). split; [cbn; now rewrite <- app_assoc |].
      cbn. exists s, (w ++ q). rewrite <- !app_assoc. repeat split; auto.
  Qed.
End Sound.

(** ** The whole parser *)
Theorem parse_expr_spec k n s : 2 * length s + 2 <= n ->
  match parse_expr k n s with
  | Ok z => exists b w, s = b ++ w /\ blank b /\ Expr (machine k) w (Some z)
  | Err _ => forall b w v, s = b ++ w -> blank b -> ~ Expr (machine k) w v
  | Panic => exists b w r q, s = b ++ w ++ r /\ blank b /\ Expr (machine k) (w ++ q) None
  | OutOfFuel => False
  end /\ forall b w v, s = b ++ w -> blank b -> Expr (machine k) w v -> parse_expr k n s = match v with Some z => Ok z | None => Panic end.
Proof.
  intros Hn.
  assert (HC : forall b w v, s = b ++ w -> blank b -> Expr (machine k) w v -> parse_expr k n s = match v with Some z => Ok z | None => Panic end).
  { intros b w v -> Hb He. rewrite app_length in Hn. unfold parse_expr, take_expr.
    destruct (expr_start k w v He) as (c0 & w0 & Ew & Hc0 & _).
    pose proof (at_cursor_new (b ++ w)) as A. rewrite <- (app_nil_r w) in A at 1.
    apply (spaces_exact _ b (w ++ [])) in A; [| exact Hb | rewrite Ew; intros [= E]; congruence].
    pose proof (expr_done k n n w v (proj2 (proj2 (complete k)) w v He n n ltac:(lia) ltac:(lia)) _ [] _ n A) as P.
    specialize (P ltac:(intros c E; discriminate E) ltac:(intros c E; discriminate E) ltac:(lia)).
    destruct (take_expr_of _ _ _ _) as [r st]. destruct v as [z |]; cbn [result fst snd] in P; [| now subst r]. destruct P as [-> A2].
    destruct (peek_as _ _ _ A2) as (st1 & -> & _). reflexivity. }
  split; [| exact HC].
  assert (HS : match parse_expr k n s with
    | Ok z => exists b w, s = b ++ w /\ blank b /\ Expr (machine k) w (Some z)
    | Panic => exists b w r q, s = b ++ w ++ r /\ blank b /\ Expr (machine k) (w ++ q) None
    | Err _ => True | OutOfFuel => False end).
  { unfold parse_expr, take_expr. destruct (spaces_at _ _ _ (at_cursor_new s)) as (b & r & -> & Hb & _ & A). rewrite app_length in Hn.
    pose proof (expr_sound k _ (length r) n (product_sound k _ (length r) n (term_sound k n (length r) ltac:(lia)) ltac:(lia)) ltac:(lia) _ _ _ A (le_n _)) as H.
    destruct (take_expr_of _ _ _ _) as [x st]. unfold fine in H. cbn [fst snd app] in H. destruct x as [z | e | |]; auto.
    - destruct H as (w & r' & -> & He & A2). destruct (peek_as _ _ _ A2) as (st1 & -> & _). destruct r' as [| c r']; cbn; [| exact Logic.I].
      rewrite app_nil_r. eauto.
    - destruct H as (w & r' & q & -> & He). exists b, w, r', q. auto. }
  destruct (parse_expr k n s) as [z | e | |] eqn:E; try exact HS. intros b w v Hs Hb He. specialize (HC b w v Hs Hb He). destruct v; discriminate HC.
Qed.
