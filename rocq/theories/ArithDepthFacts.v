(** * ArithDepthFacts: how deeply the hand-written arithmetic parser recurses. *)
From Coq Require Import String ZArith.
From Verif Require Import ArithDepth SpecArithDepth JsonRead JsonDepthFacts.
From Coq Require Import List Lia.
Open Scope list_scope.

(** The deepest point, computed from the right. *)
Fixpoint parens (w : rstr) : nat :=
  match w with
  | [] => 0
  | c :: w' => if N.eqb c (chr "(") then S (parens w') else if N.eqb c (chr ")") then pred (parens w') else parens w'
  end.
Lemma times_cons x c w : times x (c :: w) = (if N.eqb c x then 1 else 0) + times x w.
Proof. unfold times. cbn [count_occ]. destruct (N.eq_dec c x) as [-> | H]; [now rewrite N.eqb_refl |]. now rewrite (proj2 (N.eqb_neq _ _) H). Qed.
Lemma parens_at_most w : forall n, parens w <= n <-> open_at_most n w.
Proof.
  induction w as [| c w IH]; intros n.
  - split; [| cbn; lia]. intros _ [| a u] v E; [cbn; lia | discriminate].
  - assert (K : open_at_most n (c :: w) <-> forall u v, w = u ++ v -> times (chr "(") (c :: u) <= n + times (chr ")") (c :: u)).
    { split; [intros H u v ->; now apply (H (c :: u) v) |]. intros H [| a u] v E; [cbn; lia |]. injection E as <- ->. now apply (H u v). }
    rewrite K. clear K. cbn [parens]. destruct (N.eqb_spec c (chr "(")) as [-> | H1].
    + destruct n as [| n]; [split; [lia |]; intros H; specialize (H [] w eq_refl); cbn in H; lia |]. transitivity (parens w <= n); [lia |]. rewrite IH. unfold open_at_most. split; intros H u v E; specialize (H u v E); rewrite !times_cons in *; cbn in *; lia.
    + destruct (N.eqb_spec c (chr ")")) as [-> | H2].
      * transitivity (parens w <= S n); [lia |]. rewrite IH. unfold open_at_most. split; intros H u v E; specialize (H u v E); rewrite !times_cons in *; cbn in *; lia.
      * rewrite IH. unfold open_at_most. split; intros H u v E; specialize (H u v E); rewrite !times_cons, (proj2 (N.eqb_neq _ _) H1), (proj2 (N.eqb_neq _ _) H2) in *; cbn in *; lia.
Qed.

(** ** Steps *)
Lemma r_spaces st : exists a, remaining st = a ++ remaining (spaces st) /\ Forall (eq 32%N) a.
Proof.
  unfold spaces, skip_while. destruct (r_skip_loop (N.eqb 32) (2 + length (irest st)) st) as (a & r' & st' & A & B & C & F & G).
  - pose proof (remaining_length st). lia.
  - rewrite A. exists a. split; [congruence |]. eapply Forall_impl; [| exact C]. intros c Hc. now apply N.eqb_eq.
Qed.
Lemma consume_inv s st v st' : ascii_text s -> consume_str s st = (Ok v, st') -> remaining st = s ++ remaining st'.
Proof. intros Hs E. destruct (r_consume s st Hs) as [(r' & st1 & A & B & C) | [_ (e & st1 & B)]]; rewrite B in E; [| discriminate]. injection E as _ <-. now rewrite C. Qed.
Lemma peek_inv st p st1 : iw_peek st = (p, st1) -> p = hd_error (remaining st) /\ remaining st1 = remaining st.
Proof. intros E. destruct (r_peek st) as (st2 & E2 & R). rewrite E2 in E. injection E as <- <-. auto. Qed.
Definition shaped (P : rstr -> Prop) (item : iw -> res Z take_error * iw) : Prop := forall st v st', item st = (Ok v, st') -> exists w, remaining st = w ++ remaining st' /\ P w.
Definition plain (c : char) : Prop := c <> chr "(" /\ c <> chr ")".

Section Shape.
  Variable checks : bool.
  Variable P : rstr -> Prop.
  Hypotheses (Pnil : P []) (Papp : forall a b, P a -> P b -> P (a ++ b)) (Pchar : forall c, plain c -> P [c]).
  Lemma P_blank a : Forall (eq 32%N) a -> P a.
  Proof. induction 1 as [| c a <- _ IH]; [exact Pnil |]. apply (Papp [32%N] a); [apply Pchar; split; discriminate | exact IH]. Qed.
  Lemma or_panic_inv {A} (x : option A) (st st' : iw) v : or_panic (E := take_error) x st = (Ok v, st') -> x = Some v /\ st' = st.
  Proof. destruct x; cbn; intros E; [injection E as <- <-; auto | discriminate]. Qed.
  Lemma number_shaped : forall n out, shaped P (take_number checks n out).
  Proof.
    induction n as [| n IH]; intros out st v st' E; [discriminate |]. cbn [take_number] in E. destruct (iw_peek st) as [[c |] st1] eqn:Ep; apply peek_inv in Ep as [Hc R1].
    - destruct (digit_of c) as [d |] eqn:Ed.
      + apply then_inv in E as (u & st2 & E2 & E). apply then_inv in E as (y & st3 & E3 & E). apply or_panic_inv in E3 as [_ ->]. unfold digit_of in Ed. destruct ((48 <=? c)%N && (c <=? 57)%N) eqn:Eb; [| discriminate]. apply andb_true_iff in Eb as [B1 B2]. apply N.leb_le in B1, B2.
        apply consume_inv in E2; [| repeat constructor; lia]. destruct (IH _ _ _ _ E) as (w & W1 & W2). exists ([c] ++ w). split; [rewrite <- R1, E2, W1; reflexivity |]. apply Papp; [apply Pchar; split; intros ->; cbn in *; lia | exact W2].
      + destruct out; [injection E as <- <- | discriminate]. exists []. now rewrite R1.
    - destruct out; [injection E as <- <- | discriminate]. exists []. now rewrite R1.
  Qed.
  Lemma op_shaped item (f : Z -> Z -> option Z) (loop : Z -> iw -> res Z take_error * iw) c z st v st' : plain c -> (c < 128)%N -> shaped P item -> (forall out, shaped P (loop out)) ->
    then_ (consume_str [c] st) (fun _ st2 => then_ (item (spaces st2)) (fun v st3 => then_ (or_panic (f z v) st3) loop)) = (Ok v, st') -> exists w, remaining st = w ++ remaining st' /\ P w.
  Proof.
    intros Hc Hc2 Hi Hl E. apply then_inv in E as (u & st2 & E2 & E). apply then_inv in E as (y & st3 & E3 & E). apply then_inv in E as (q & st4 & E4 & E). apply or_panic_inv in E4 as [_ ->].
    apply consume_inv in E2; [| repeat constructor; exact Hc2]. destruct (r_spaces st2) as (a & A1 & A2). destruct (Hi _ _ _ E3) as (w & W1 & W2). destruct (Hl _ _ _ _ E) as (w' & W3 & W4). exists ([c] ++ a ++ w ++ w'). split; [rewrite E2, A1, W1, W3, <- !app_assoc; reflexivity |].
    apply Papp; [now apply Pchar |]. apply Papp; [now apply P_blank |]. now apply Papp.
  Qed.
  Lemma product_loop_shaped term : shaped P term -> forall n out, shaped P (product_loop checks term n out).
  Proof.
    intros Ht. induction n as [| n IH]; intros out st v st' E; [discriminate |]. cbn [product_loop] in E. destruct (iw_peek st) as [[c |] st1] eqn:Ep; apply peek_inv in Ep as [_ R1].
    - destruct (N.eqb c (chr "*")); [rewrite <- R1; revert E; apply op_shaped; auto; [split; discriminate | reflexivity] |]. destruct (N.eqb c (chr "/")); [rewrite <- R1; revert E; apply (op_shaped _ i64_div); auto; [split; discriminate | reflexivity] |].
      injection E as <- <-. exists []. now rewrite R1.
    - injection E as <- <-. exists []. now rewrite R1.
  Qed.
  Lemma product_shaped term n : shaped P term -> shaped P (take_product checks term n).
  Proof.
    intros Ht st v st' E. apply then_inv in E as (a & st1 & E1 & E2). destruct (Ht _ _ _ E1) as (w & W1 & W2). destruct (product_loop_shaped term Ht _ _ _ _ _ E2) as (w' & W3 & W4). exists (w ++ w'). rewrite W1, W3, app_assoc. auto.
  Qed.
  Lemma expr_loop_shaped product : shaped P product -> forall n out, shaped P (expr_loop checks product n out).
  Proof.
    intros Ht. induction n as [| n IH]; intros out st v st' E; [discriminate |]. cbn [expr_loop] in E. destruct (iw_peek st) as [[c |] st1] eqn:Ep; apply peek_inv in Ep as [_ R1].
    - destruct (N.eqb c (chr "+")); [rewrite <- R1; revert E; apply op_shaped; auto; [split; discriminate | reflexivity] |]. destruct (N.eqb c (chr "-")); [rewrite <- R1; revert E; apply op_shaped; auto; [split; discriminate | reflexivity] |].
      injection E as <- <-. exists []. now rewrite R1.
    - injection E as <- <-. exists []. now rewrite R1.
  Qed.
  Lemma expr_shaped product n : shaped P product -> shaped P (take_expr_of checks product n).
  Proof.
    intros Ht st v st' E. apply then_inv in E as (a & st1 & E1 & E2). destruct (Ht _ _ _ E1) as (w & W1 & W2). destruct (expr_loop_shaped product Ht _ _ _ _ _ E2) as (w' & W3 & W4). exists (w ++ w'). rewrite W1, W3, app_assoc. auto.
  Qed.
End Shape.
Lemma term_shaped checks (Q : rstr -> Prop) loops sub : Q [] -> (forall a b, Q a -> Q b -> Q (a ++ b)) -> (forall c, plain c -> Q [c]) ->
  (forall a st v st', Forall (eq 32%N) a -> take_expr_of checks (take_product checks sub loops) loops st = (Ok v, st') -> exists w, remaining st = w ++ remaining st' /\ Q (lit "(" ++ (a ++ w) ++ lit ")")) ->
  shaped Q (term_with checks loops sub).
Proof.
  intros Q1 Q2 Q3 HE st v st' E. unfold term_with in E. destruct (iw_peek st) as [p st1] eqn:Ep. apply peek_inv in Ep as [_ R1].
  apply then_inv in E as (v1 & st2 & E & E2). injection E2 as _ <-. destruct (r_spaces st2) as (a & A1 & A2). enough (K : exists w, remaining st1 = w ++ remaining st2 /\ Q w).
  { destruct K as (w & K1 & K2). exists (w ++ a). rewrite <- R1, K1, A1 at 1. rewrite <- app_assoc. split; [reflexivity |]. apply Q2; [exact K2 | now apply P_blank]. }
  destruct p as [c |]; [| discriminate]. destruct (N.eqb c (chr "-")).
  - apply then_inv in E as (u & st3 & E3 & E). apply then_inv in E as (y & st4 & E4 & E). apply or_panic_inv in E as [_ ->]. apply consume_inv in E3; [| repeat constructor]. destruct (r_spaces st3) as (b & B1 & B2). destruct (number_shaped checks Q Q1 Q2 Q3 _ _ _ _ _ E4) as (w & W1 & W2).
    exists (lit "-" ++ b ++ w). rewrite E3, B1, W1, <- !app_assoc. split; [reflexivity |]. apply Q2; [apply Q3; split; discriminate |]. apply Q2; [now apply P_blank | exact W2].
  - destruct (digit_of c); [exact (number_shaped checks Q Q1 Q2 Q3 _ _ _ _ _ E) |]. destruct (N.eqb c (chr "(")); [| discriminate].
    apply then_inv in E as (u & st3 & E3 & E). apply consume_inv in E3; [| repeat constructor]. destruct (r_spaces st3) as (b & B1 & B2). destruct (take_expr_of checks (take_product checks sub loops) loops (spaces st3)) as [o st4] eqn:E4.
    assert (K : o = Ok v1 /\ exists u, consume_str (lit ")") st4 = (Ok u, st2)). { destruct o; try discriminate; apply then_inv in E as (u' & st5 & E5 & E6); [injection E6 as -> -> | discriminate]. eauto. }
    destruct K as [-> [u' E5]]. apply consume_inv in E5; [| repeat constructor]. destruct (HE b _ _ _ B2 E4) as (w & W1 & W2).
    exists (lit "(" ++ (b ++ w) ++ lit ")"). split; [| exact W2]. rewrite E3, B1, W1, E5, <- !app_assoc. reflexivity.
Qed.

(** What is read never closes more than it opens, and goes at most this deep. *)
Definition deep (b : nat) (w : rstr) : Prop := forall r, parens r <= parens (w ++ r) <= Nat.max b (parens r).
Lemma deep_nil b : deep b [].
Proof. intros r. cbn. lia. Qed.
Lemma deep_app b x y : deep b x -> deep b y -> deep b (x ++ y).
Proof. intros H1 H2 r. rewrite <- app_assoc. specialize (H1 (y ++ r)). specialize (H2 r). lia. Qed.
Lemma deep_char b c : plain c -> deep b [c].
Proof. intros [H1 H2] r. cbn [app parens]. rewrite (proj2 (N.eqb_neq _ _) H1), (proj2 (N.eqb_neq _ _) H2). lia. Qed.
Lemma deep_paren b w : deep b w -> deep (S b) (lit "(" ++ w ++ lit ")").
Proof. intros H r. rewrite <- !app_assoc. change (parens (lit "(" ++ w ++ lit ")" ++ r)) with (S (parens (w ++ lit ")" ++ r))). specialize (H (lit ")" ++ r)). change (parens (lit ")" ++ r)) with (pred (parens r)) in H. lia. Qed.
Lemma nested_shaped checks loops : forall n, shaped (deep (pred n)) (take_term_nested checks loops n).
Proof.
  induction n as [| n IH]; [intros st v st' E; discriminate |]. cbn [take_term_nested pred]. apply (term_shaped checks (deep n)); auto using deep_nil, deep_app, deep_char.
  intros a st v st' Ha E. destruct n as [| n]; [discriminate |]. pose proof (expr_shaped checks (deep n) (deep_nil n) (deep_app n) (deep_char n) _ loops (product_shaped checks (deep n) (deep_nil n) (deep_app n) (deep_char n) _ loops IH) st v st' E) as (w & W1 & W2).
  exists w. split; [exact W1 |]. apply deep_paren, deep_app; [| exact W2]. apply (P_blank (deep n)); auto using deep_nil, deep_app, deep_char.
Qed.

(** ** More room changes nothing *)
Section Agree.
  Variables (checks : bool) (P R : rstr -> Prop).
  Hypotheses (Pnil : P []) (Papp : forall a b, P a -> P b -> P (a ++ b)) (Pchar : forall c, plain c -> P [c]) (Rcut : forall w r, P w -> R (w ++ r) -> R r).
  Definition agrees (item item' : iw -> res Z take_error * iw) : Prop := forall st, R (remaining st) -> alive (item st) -> item' st = item st.
  Lemma number_more : forall n m out st, n <= m -> alive (take_number checks n out st) -> take_number checks m out st = take_number checks n out st.
  Proof.
    induction n as [| n IH]; intros m out st Hm Ha; [now elim Ha |]. destruct m as [| m]; [lia |]. cbn [take_number] in *. destruct (iw_peek st) as [[c |] st1]; [| reflexivity].
    destruct (digit_of c) as [d |]; [| reflexivity]. apply then_same; [reflexivity |]. intros v st2 E. rewrite E in Ha. rewrite then_ok in Ha. apply then_same; [reflexivity |]. intros y st3 E2. rewrite E2, then_ok in Ha. apply IH; [lia | exact Ha].
  Qed.
  Lemma op_agree item item' (f : Z -> Z -> option Z) (loop loop' : Z -> iw -> res Z take_error * iw) c z st : plain c -> (c < 128)%N -> shaped P item -> agrees item item' -> (forall out, agrees (loop out) (loop' out)) ->
    R (remaining st) -> alive (then_ (consume_str [c] st) (fun _ st2 => then_ (item (spaces st2)) (fun v st3 => then_ (or_panic (f z v) st3) loop))) ->
    then_ (consume_str [c] st) (fun _ st2 => then_ (item' (spaces st2)) (fun v st3 => then_ (or_panic (f z v) st3) loop')) = then_ (consume_str [c] st) (fun _ st2 => then_ (item (spaces st2)) (fun v st3 => then_ (or_panic (f z v) st3) loop)).
  Proof.
    intros Hc Hc2 Hs Hi Hl HR Ha. apply then_same; [reflexivity |]. intros u st2 E. rewrite E, then_ok in Ha. apply consume_inv in E; [| repeat constructor; exact Hc2]. destruct (r_spaces st2) as (a & A1 & A2).
    assert (R2 : R (remaining (spaces st2))). { apply (Rcut ([c] ++ a)); [apply Papp; [now apply Pchar | now apply P_blank] |]. now rewrite <- app_assoc, <- A1, <- E. }
    apply then_same; [apply Hi; [exact R2 | now apply then_alive in Ha] |]. intros v st3 E3. rewrite E3, then_ok in Ha. destruct (Hs _ _ _ E3) as (w & W1 & W2). apply then_same; [reflexivity |]. intros q st4 E4. rewrite E4, then_ok in Ha. apply or_panic_inv in E4 as [_ ->]. apply Hl; [| exact Ha]. apply (Rcut w); [exact W2 |]. now rewrite <- W1.
  Qed.
  Lemma product_loop_agree term term' : shaped P term -> agrees term term' -> forall n m out, n <= m -> agrees (product_loop checks term n out) (product_loop checks term' m out).
  Proof.
    intros Hs Hi. induction n as [| n IH]; intros m out Hm st HR Ha; [now elim Ha |]. destruct m as [| m]; [lia |]. cbn [product_loop] in *. destruct (iw_peek st) as [[c |] st1] eqn:Ep; [| reflexivity]. apply peek_inv in Ep as [_ R1].
    destruct (N.eqb c (chr "*")); [apply op_agree; auto; [split; discriminate | reflexivity | intros; apply IH; lia | now rewrite R1] |]. destruct (N.eqb c (chr "/")); [| reflexivity]. apply op_agree; auto; [split; discriminate | reflexivity | intros; apply IH; lia | now rewrite R1].
  Qed.
  Lemma product_agree term term' n m : shaped P term -> agrees term term' -> n <= m -> agrees (take_product checks term n) (take_product checks term' m).
  Proof.
    intros Hs Hi Hm st HR Ha. unfold take_product in *. apply then_same; [apply Hi; [exact HR | now apply then_alive in Ha] |]. intros v st2 E. rewrite E, then_ok in Ha. destruct (Hs _ _ _ E) as (w & W1 & W2). apply product_loop_agree; auto. apply (Rcut w); [exact W2 | now rewrite <- W1].
  Qed.
  Lemma expr_loop_agree term term' : shaped P term -> agrees term term' -> forall n m out, n <= m -> agrees (expr_loop checks term n out) (expr_loop checks term' m out).
  Proof.
    intros Hs Hi. induction n as [| n IH]; intros m out Hm st HR Ha; [now elim Ha |]. destruct m as [| m]; [lia |]. cbn [expr_loop] in *. destruct (iw_peek st) as [[c |] st1] eqn:Ep; [| reflexivity]. apply peek_inv in Ep as [_ R1].
    destruct (N.eqb c (chr "+")); [apply op_agree; auto; [split; discriminate | reflexivity | intros; apply IH; lia | now rewrite R1] |]. destruct (N.eqb c (chr "-")); [| reflexivity]. apply op_agree; auto; [split; discriminate | reflexivity | intros; apply IH; lia | now rewrite R1].
  Qed.
  Lemma expr_agree term term' n m : shaped P term -> agrees term term' -> n <= m -> agrees (take_expr_of checks (take_product checks term n) n) (take_expr_of checks (take_product checks term' m) m).
  Proof.
    intros Hs Hi Hm st HR Ha. unfold take_expr_of in *. pose proof (product_agree term term' n m Hs Hi Hm) as Hp. pose proof (product_shaped checks P Pnil Papp Pchar term n Hs) as Hps.
    apply then_same; [apply Hp; [exact HR | now apply then_alive in Ha] |]. intros v st2 E. rewrite E, then_ok in Ha. destruct (Hps _ _ _ E) as (w & W1 & W2). apply expr_loop_agree; auto. apply (Rcut w); [exact W2 | now rewrite <- W1].
  Qed.
End Agree.
Lemma term_agree checks (P R R' : rstr -> Prop) sub sub' n m st : P [] -> (forall a b, P a -> P b -> P (a ++ b)) -> (forall c, plain c -> P [c]) -> (forall w r, P w -> R' (w ++ r) -> R' r) -> (forall r, R (chr "(" :: r) -> R' r) ->
  shaped P sub -> agrees R' sub sub' -> n <= m -> R (remaining st) -> alive (term_with checks n sub st) -> term_with checks m sub' st = term_with checks n sub st.
Proof.
  intros P1 P2 P3 Rc Ro Hs Hi Hm HR Ha. unfold term_with in *. destruct (iw_peek st) as [p st1] eqn:Ep. apply peek_inv in Ep as [_ R1]. apply then_same; [| reflexivity]. apply then_alive in Ha. destruct p as [c |]; [| reflexivity].
  destruct (N.eqb c (chr "-")).
  { apply then_same; [reflexivity |]. intros u st2 E. rewrite E, then_ok in Ha. apply then_same; [| reflexivity]. apply number_more; [exact Hm | now apply then_alive in Ha]. }
  destruct (digit_of c); [now apply number_more |]. destruct (N.eqb c (chr "(")); [| reflexivity]. apply then_same; [reflexivity |]. intros u st2 E. rewrite E, then_ok in Ha. apply consume_inv in E; [| repeat constructor].
  destruct (r_spaces st2) as (a & A1 & A2). assert (R2 : R' (remaining (spaces st2))). { apply (Rc a); [now apply P_blank |]. rewrite <- A1. apply Ro. change (chr "(" :: remaining st2) with (lit "(" ++ remaining st2). now rewrite <- E, R1. }
  rewrite (expr_agree checks P R' P1 P2 P3 Rc sub sub' n m Hs Hi Hm _ R2); [reflexivity |].
  intros K. destruct (take_expr_of checks (take_product checks sub n) n (spaces st2)) as [o st3]. cbn [fst] in K. subst o. now apply Ha.
Qed.

Lemma take_term_with checks n : take_term checks (S n) = term_with checks n (take_term checks n).
Proof. reflexivity. Qed.
Definition mild (w : rstr) : Prop := forall r, parens r <= parens (w ++ r).
Lemma mild_nil : mild [].
Proof. intros r. cbn. lia. Qed.
Lemma mild_app x y : mild x -> mild y -> mild (x ++ y).
Proof. intros H1 H2 r. rewrite <- app_assoc. specialize (H1 (y ++ r)). specialize (H2 r). lia. Qed.
Lemma mild_char c : plain c -> mild [c].
Proof. intros H r. now destruct (deep_char 0 c H r). Qed.
Lemma mild_paren w : mild w -> mild (lit "(" ++ w ++ lit ")").
Proof. intros H r. rewrite <- !app_assoc. change (parens (lit "(" ++ w ++ lit ")" ++ r)) with (S (parens (w ++ lit ")" ++ r))). specialize (H (lit ")" ++ r)). change (parens (lit ")" ++ r)) with (pred (parens r)) in H. lia. Qed.
Lemma term_mild checks : forall n, shaped mild (take_term checks n).
Proof.
  induction n as [| n IH]; [intros st v st' E; discriminate |]. rewrite take_term_with. apply (term_shaped checks mild); auto using mild_nil, mild_app, mild_char.
  intros a st v st' Ha E. pose proof (expr_shaped checks mild mild_nil mild_app mild_char _ n (product_shaped checks mild mild_nil mild_app mild_char _ n IH) st v st' E) as (w & W1 & W2).
  exists w. split; [exact W1 |]. apply mild_paren, mild_app; [| exact W2]. apply (P_blank mild); auto using mild_nil, mild_app, mild_char.
Qed.
Lemma below_cut N w r : mild w -> parens (w ++ r) < N -> parens r < N.
Proof. intros H. specialize (H r). lia. Qed.
Lemma term_enough checks L : forall n N, n <= L -> agrees (fun r => parens r < N) (take_term checks n) (take_term_nested checks L N).
Proof.
  induction n as [| n IH]; intros N HL st HR Ha; [now elim Ha |]. destruct N as [| N]; [lia |]. rewrite take_term_with in *. cbn [take_term_nested].
  apply (term_agree checks mild (fun r => parens r < S N) (fun r => parens r < N)); auto using mild_nil, mild_app, mild_char, term_mild; [apply below_cut | | apply IH; lia | lia].
  intros r. cbn [parens]. rewrite N.eqb_refl. lia.
Qed.
Lemma nested_more checks L : forall N M, N <= M -> agrees (fun _ => True) (take_term_nested checks L N) (take_term_nested checks L M).
Proof.
  induction N as [| N IH]; intros M HM st HR Ha; [now elim Ha |]. destruct M as [| M]; [lia |]. cbn [take_term_nested] in *.
  apply (term_agree checks (fun _ => True) (fun _ => True) (fun _ => True)); auto; [| apply IH; lia]. intros st2 v st3 E. destruct (nested_shaped checks L N st2 v st3 E) as (w & W & _). eauto.
Qed.
