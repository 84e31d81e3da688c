(** * SyntaxFacts: printing and parsing nibble programs. *)
From Coq Require Import String.
From Verif Require Export SpecSyntax.
From Coq Require Import List Lia.
Open Scope list_scope.

Section NodeInd.
  Variable P : node -> Prop.
  Hypothesis H1 : forall sp, P (NEpsilon sp).
  Hypothesis H2 : forall i, P (NIdent i).
  Hypothesis H3 : forall v sp, P (NLiteral v sp).
  Hypothesis H4 : forall b t, P t -> P (NFix b t).
  Hypothesis H5 : forall sp e, P e -> P (NParen sp e).
  Hypothesis H6 : forall ts, Forall P ts -> P (NCall ts).
  Hypothesis H7 : forall ps, Forall (fun x => P (fst x)) ps -> P (NCatP ps).
  Hypothesis H8 : forall c l, P c -> P (NLabelled c l).
  Hypothesis H9 : forall ps, Forall (fun x => P (fst x)) ps -> P (NAltP ps).
  Hypothesis H10 : forall l args r e, P e -> P (NLambda l args r e).
  Fixpoint node_ind' (n : node) : P n :=
    let pairs := fix go (l : list (node * option span)) : Forall (fun x => P (fst x)) l :=
      match l with [] => Forall_nil _ | x :: l' => Forall_cons _ (node_ind' (fst x)) (go l') end in
    match n with
    | NEpsilon sp => H1 sp
    | NIdent i => H2 i
    | NLiteral v sp => H3 v sp
    | NFix b t => H4 b t (node_ind' t)
    | NParen sp e => H5 sp e (node_ind' e)
    | NCall ts => H6 ts ((fix go l : Forall P l := match l with [] => Forall_nil _ | x :: l' => Forall_cons _ (node_ind' x) (go l') end) ts)
    | NCatP ps => H7 ps (pairs ps)
    | NLabelled c l => H8 c l (node_ind' c)
    | NAltP ps => H9 ps (pairs ps)
    | NLambda l args r e => H10 l args r e (node_ind' e)
    end.
End NodeInd.

Lemma is_word_iff s i : is_word s i = true <-> id_raw i = false /\ id_sym i = s.
Proof.
  unfold is_word. rewrite andb_true_iff, negb_true_iff, rstr_eqb_eq. tauto.
Qed.
Lemma is_reserved_iff i : is_reserved i = false <-> parameter i.
Proof.
  unfold is_reserved, parameter. split.
  - intros H Hr s Hs E. assert (existsb (fun s => is_word (lit s) i) reserved = true); [| congruence].
    apply existsb_exists. exists s. split; [exact Hs |]. now apply is_word_iff.
  - intros H. destruct (existsb _ _) eqn:E; [| reflexivity]. apply existsb_exists in E as (s & Hs & Hw).
    apply is_word_iff in Hw as [Hr Hw]. elim (H Hr s Hs Hw).
Qed.

(** ** The parser at each level *)
Definition parse_at (fuel : nat) (L : level) : list token -> option (node * list token) :=
  match L with
  | LvTerm => parse_term fuel
  | LvCall => parse_call (parse_term fuel)
  | LvCat => parse_cat (parse_term fuel)
  | LvLabelled => parse_labelled (parse_term fuel)
  | LvAlt => parse_alt (parse_term fuel)
  | LvExpr => parse_expr (parse_term fuel)
  end.
Definition next_is (c : char) (ts : list token) : bool := match ts with t :: _ => is_punct c t | [] => false end.
(** What may follow a complete phrase of a level. *)
Definition follow (L : level) (rest : list token) : Prop :=
  match L with
  | LvTerm => True
  | LvCall => starts_term rest = false
  | LvCat => starts_term rest = false /\ next_is (chr ".") rest = false
  | LvLabelled => starts_term rest = false /\ next_is (chr ".") rest = false /\ next_is (chr ":") rest = false
  | LvAlt | LvExpr => starts_term rest = false /\ next_is (chr ".") rest = false /\ next_is (chr ":") rest = false
      /\ next_is (chr "|") rest = false
  end.
Lemma parse_punct_none c ts : next_is c ts = false -> parse_punct c ts = None.
Proof. destruct ts as [| [] ts]; cbn; auto. now intros ->. Qed.
Lemma parse_punct_some c sp ts : parse_punct c (TkPunct c sp :: ts) = Some (sp, ts).
Proof. cbn. now rewrite N.eqb_refl. Qed.
Lemma parse_punct_inv c ts sp r : parse_punct c ts = Some (sp, r) -> ts = TkPunct c sp :: r.
Proof.
  destruct ts as [| [] ts]; cbn; try discriminate. destruct (N.eqb_spec c c0); [| discriminate]. now intros [= <- <-]; subst.
Qed.

(** Every phrase begins like a term. *)
Lemma starts_app a b : starts_term a = true -> starts_term (a ++ b) = true.
Proof. destruct a; [discriminate | auto]. Qed.
Lemma wf_starts n : forall L, wf L n -> match n with NLambda _ _ _ _ => True | _ => starts_term (to_tokens n) = true end.
Proof.
  induction n using node_ind'; intros L Hw; try exact Logic.I; cbn [to_tokens].
  - reflexivity.
  - reflexivity.
  - reflexivity.
  - reflexivity.
  - reflexivity.
  - assert (Hc : exists t ts', ts = t :: ts' /\ wf LvTerm t).
    { clear H. remember (NCall ts) as m eqn:E. revert E. induction Hw; intros E; try discriminate E; eauto.
      injection E as <-. eauto. }
    destruct Hc as (t & ts' & -> & Ht). inversion H; subst. cbn [flat_map]. apply starts_app.
    specialize (H2 _ Ht). destruct t; auto. inversion Ht.
  - assert (Hc : exists x p ps', ps = (x, p) :: ps' /\ wf LvCall x).
    { clear H. remember (NCatP ps) as m eqn:E. revert E. induction Hw; intros E; try discriminate E; eauto.
      injection E as <-. destruct H; eauto. }
    destruct Hc as (t & p & ts' & -> & Ht). inversion H; subst. cbn [pairs_tokens]. apply starts_app.
    specialize (H2 _ Ht). cbn in H2. destruct t; auto. inversion Ht.
  - assert (Hc : wf LvCat n).
    { clear IHn. remember (NLabelled n l) as m eqn:E. revert E. induction Hw; intros E; try discriminate E; eauto.
      injection E as <- <-. assumption. }
    apply starts_app. specialize (IHn _ Hc). destruct n; auto. inversion Hc.
  - assert (Hc : exists x p ps', ps = (x, p) :: ps' /\ wf LvLabelled x).
    { clear H. remember (NAltP ps) as m eqn:E. revert E. induction Hw; intros E; try discriminate E; eauto.
      injection E as <-. destruct H; eauto. }
    destruct Hc as (t & p & ts' & -> & Ht). inversion H; subst. cbn [pairs_tokens]. apply starts_app.
    specialize (H2 _ Ht). cbn in H2. destruct t; auto. inversion Ht.
Qed.
Lemma wf_starts_alt L n : L <> LvExpr -> wf L n -> starts_term (to_tokens n) = true.
Proof.
  intros HL Hw. pose proof (wf_starts n L Hw). destruct n; auto. inversion Hw; subst; congruence.
Qed.
Lemma starts_length ts : starts_term ts = true -> 1 <= length ts.
Proof. destruct ts; cbn; [discriminate | lia]. Qed.

(** ** Sizes *)
Lemma tokens_size_app a b : tokens_size (a ++ b) = tokens_size a + tokens_size b.
Proof. unfold tokens_size. rewrite map_app. apply list_sum_app. Qed.
Lemma tokens_size_cons t ts : tokens_size (t :: ts) = token_size t + tokens_size ts.
Proof. reflexivity. Qed.
Lemma token_size_pos t : 1 <= token_size t.
Proof. destruct t; cbn; lia. Qed.
Lemma starts_size ts : starts_term ts = true -> 1 <= tokens_size ts.
Proof. destruct ts; [discriminate |]. intros _. rewrite tokens_size_cons. pose proof (token_size_pos t). lia. Qed.

(** ** The loops *)
Lemma call_terms_ok term ts : forall fuel rest,
  ts <> [] -> length (flat_map to_tokens ts) < fuel -> starts_term rest = false ->
  Forall (fun t => starts_term (to_tokens t) = true /\ forall rest, term (to_tokens t ++ rest) = Some (t, rest)) ts ->
  call_terms term fuel (flat_map to_tokens ts ++ rest) = Some (ts, rest).
Proof.
  induction ts as [| t ts IH]; intros fuel rest Hne Hf Hr H; [congruence |]. inversion H as [| ? ? [Hs Ht] H']; subst.
  destruct fuel as [| fuel]; [lia |]. cbn [flat_map] in *. rewrite app_length in Hf. apply starts_length in Hs.
  rewrite <- app_assoc. cbn [call_terms]. rewrite Ht. destruct ts as [| t' ts].
  - cbn [flat_map app]. now rewrite Hr.
  - assert (Hst : starts_term (flat_map to_tokens (t' :: ts) ++ rest) = true).
    { apply starts_app. cbn. apply starts_app. now inversion H' as [| ? ? [? ?] ?]. }
    rewrite Hst. rewrite IH; [reflexivity | congruence | lia | assumption | assumption].
Qed.
Lemma separated_ok item (sep : string) (P : node -> Prop) ps :
  punctuated P ps -> forall fuel rest, length (pairs_tokens to_tokens sep ps) < fuel -> next_is (chr sep) rest = false ->
  (forall x p, In (x, p) ps -> P x -> starts_term (to_tokens x) = true /\
     forall r, (r = rest \/ exists sp r', r = TkPunct (chr sep) sp :: r') -> item (to_tokens x ++ r) = Some (x, r)) ->
  separated item (chr sep) fuel (pairs_tokens to_tokens sep ps ++ rest) = Some (ps, rest).
Proof.
  induction 1 as [x Hx | x sp l Hx Hl IH]; intros fuel rest Hf Hn H; cbn [pairs_tokens] in *; (destruct fuel as [| fuel]; [lia |]).
  - rewrite !app_nil_r. cbn [separated]. destruct (H x None (or_introl eq_refl) Hx) as [_ E].
    rewrite (E rest (or_introl eq_refl)). now rewrite parse_punct_none.
  - rewrite <- !app_assoc. cbn [separated app]. destruct (H x (Some sp) (or_introl eq_refl) Hx) as [Hs E].
    rewrite (E (pt sep sp :: pairs_tokens to_tokens sep l ++ rest)) by (right; unfold pt; eauto).
    unfold pt. rewrite parse_punct_some. rewrite IH.
    + reflexivity.
    + rewrite !app_length in Hf. cbn [length] in Hf. lia.
    + exact Hn.
    + intros y p Hin Hy. apply (H y p); [now right | exact Hy].
Qed.
Lemma lambda_args_ok args : forall arg fuel rest, Forall parameter (arg :: args) -> length args < fuel ->
  next_is (chr "/") rest = true ->
  lambda_args fuel (map TkIdent (arg :: args) ++ rest) = Some (arg :: args, rest).
Proof.
  induction args as [| a args IH]; intros arg fuel rest H Hf Hn; (destruct fuel as [| fuel]; [lia |]); inversion H as [| ? ? Hp Hps]; subst;
    apply is_reserved_iff in Hp.
  - cbn [map app lambda_args parse_ident]. rewrite Hp. destruct rest as [| t rest]; [discriminate Hn |].
    destruct t; try discriminate Hn. apply N.eqb_eq in Hn. subst c. now rewrite N.eqb_refl.
  - cbn [map app lambda_args parse_ident]. rewrite Hp. cbn [length] in Hf.
    specialize (IH a fuel rest Hps ltac:(lia) Hn). cbn [map app] in IH. now rewrite IH.
Qed.
Lemma let_args_ok args : forall fuel rest, Forall parameter args -> length args < fuel ->
  next_is (chr "=") rest = true ->
  let_args fuel (map TkIdent args ++ rest) = Some (args, rest).
Proof.
  induction args as [| a args IH]; intros fuel rest H Hf Hn; (destruct fuel as [| fuel]; [lia |]).
  - destruct rest as [| t rest]; [discriminate Hn |]. destruct t; try discriminate Hn. apply N.eqb_eq in Hn. subst c.
    cbn [map app let_args]. now rewrite N.eqb_refl.
  - inversion H as [| ? ? Hp Hps]; subst. apply is_reserved_iff in Hp. cbn [map app let_args parse_ident]. rewrite Hp.
    cbn [length] in Hf. now rewrite IH by (auto; lia).
Qed.

(** ** Printing then parsing *)
Lemma wf_inv_expr n : wf LvExpr n -> wf LvAlt n \/ exists l arg args r e, n = NLambda l (arg :: args) r e /\ Forall parameter (arg :: args) /\ wf LvAlt e.
Proof. intros H. inversion H; subst; [now left |]. right. do 5 eexists. split; [reflexivity |]. split; [now constructor | assumption]. Qed.

Ltac punct_of H := apply (f_equal (fun b : bool => b)) in H.

Lemma print_parse n : forall L fuel rest, wf L n -> tokens_size (to_tokens n) <= fuel -> follow L rest ->
  parse_at fuel L (to_tokens n ++ rest) = Some (n, rest).
Proof.
  assert (HAlt : forall m fuel rest, (forall L fuel rest, L <> LvExpr -> wf L m -> tokens_size (to_tokens m) <= fuel -> follow L rest ->
      parse_at fuel L (to_tokens m ++ rest) = Some (m, rest)) ->
    wf LvAlt m -> tokens_size (to_tokens m) <= fuel -> follow LvExpr rest -> parse_expr (parse_term fuel) (to_tokens m ++ rest) = Some (m, rest)).
  { intros m fuel rest IH Hw Hf Hr. pose proof (wf_starts_alt LvAlt m ltac:(discriminate) Hw) as Hs.
    unfold parse_expr. specialize (IH LvAlt fuel rest ltac:(discriminate) Hw Hf Hr). cbn [parse_at] in IH.
    destruct (to_tokens m ++ rest) as [| [] l] eqn:E; try exact IH.
    destruct (to_tokens m) as [| t0 l0]; [discriminate Hs |]. cbn in E. injection E as -> _. cbn in Hs.
    apply N.eqb_eq in Hs. subst c. exact IH. }
  enough (HH : (forall L fuel rest, L <> LvExpr -> wf L n -> tokens_size (to_tokens n) <= fuel -> follow L rest ->
      parse_at fuel L (to_tokens n ++ rest) = Some (n, rest))
    /\ (forall fuel rest, wf LvExpr n -> tokens_size (to_tokens n) <= fuel -> follow LvExpr rest ->
      parse_at fuel LvExpr (to_tokens n ++ rest) = Some (n, rest))).
  { destruct HH as [HA HB]. intros L fuel rest Hw Hf Hr. destruct L; try (apply HA; auto; discriminate). now apply HB. }
  induction n using node_ind'; (split; [intros L fuel rest HL Hw Hf Hr | intros fuel rest Hw Hf Hr]);
    try (apply wf_inv_expr in Hw as [Hw | (? & ? & ? & ? & ? & E & _ & _)]; [inversion Hw; fail | discriminate E]);
    try (inversion Hw; subst; cbn [parse_at to_tokens] in *; try congruence).
  - destruct fuel; [cbn in Hf; lia |]. reflexivity.
  - destruct fuel; [cbn in Hf; lia |]. cbn [parse_term app]. destruct (is_word (lit "_") i) eqn:E; [| reflexivity].
    apply is_word_iff in E. contradiction.
  - destruct fuel; [cbn in Hf; lia |]. reflexivity.
  - destruct fuel; [cbn in Hf; lia |]. cbn [parse_term app pt]. rewrite N.eqb_refl.
    destruct IHn as [IHn _]. specialize (IHn LvTerm fuel rest ltac:(discriminate) ltac:(assumption)). cbn [parse_at] in IHn.
    rewrite IHn; [reflexivity | | exact Logic.I]. rewrite tokens_size_cons in Hf. cbn in Hf. lia.
  - destruct fuel; [cbn in Hf; lia |]. cbn [parse_term app].
    destruct IHn as [_ IHn]. specialize (IHn fuel [] ltac:(assumption)). cbn [parse_at] in IHn. rewrite app_nil_r in IHn.
    rewrite IHn; [reflexivity | | repeat split]. rewrite tokens_size_cons in Hf. cbn in Hf. unfold tokens_size. lia.
  - unfold parse_call. rewrite call_terms_ok; [reflexivity | discriminate | rewrite app_length; lia | exact Hr |].
    rewrite Forall_forall in H |- *. intros x Hx.
    assert (Wx : wf LvTerm x).
    { destruct Hx as [<- | Hx]; [assumption |]. match goal with h : Forall (wf LvTerm) _ |- _ => now apply (proj1 (Forall_forall _ _) h) end. }
    split; [now apply (wf_starts_alt LvTerm) |]. intros r. apply (proj1 (H x Hx) LvTerm fuel r); [discriminate | exact Wx | | exact Logic.I].
    assert (tokens_size (to_tokens x) <= tokens_size (flat_map to_tokens (t :: ts0))); [| lia].
    clear - Hx. induction (t :: ts0) as [| y l IH]; [destruct Hx |]. cbn [flat_map]. rewrite tokens_size_app.
    destruct Hx as [-> | Hx]; [lia | specialize (IH Hx); lia].
  - unfold parse_cat. destruct Hr as [Hr1 Hr2]. erewrite separated_ok; [reflexivity | eassumption | rewrite app_length; lia | exact Hr2 |].
    intros x p Hx Wx. split; [now apply (wf_starts_alt LvCall) |]. intros r Hrr.
    rewrite Forall_forall in H. apply (proj1 (H (x, p) Hx) LvCall fuel r); [discriminate | exact Wx | |].
    + assert (tokens_size (to_tokens x) <= tokens_size (pairs_tokens to_tokens "." ps)); [| cbn [fst]; lia].
      clear - Hx. induction ps as [| [y q] l IH]; [destruct Hx |]. cbn [pairs_tokens]. rewrite !tokens_size_app.
      destruct Hx as [[= -> ->] | Hx]; [lia | specialize (IH Hx); lia].
    + destruct Hrr as [-> | (sp & r' & ->)]; [exact Hr1 | reflexivity].
  - unfold parse_labelled. destruct Hr as (Hr1 & Hr2 & Hr3). rewrite <- app_assoc. rewrite tokens_size_app in Hf.
    destruct IHn as [IHn _].
    assert (E : parse_cat (parse_term fuel) (to_tokens n ++ match l with Some (sp, i) => [pt ":" sp; TkIdent i] | None => [] end ++ rest)
      = Some (n, match l with Some (sp, i) => [pt ":" sp; TkIdent i] | None => [] end ++ rest)).
    { apply (IHn LvCat); [discriminate | assumption | lia |]. destruct l as [[sp i] |]; [split; reflexivity | split; assumption]. }
    rewrite E. destruct l as [[sp i] |]; cbn [app].
    + unfold pt. rewrite parse_punct_some. reflexivity.
    + now rewrite parse_punct_none.
  - unfold parse_alt. destruct Hr as (Hr1 & Hr2 & Hr3 & Hr4). erewrite separated_ok; [reflexivity | eassumption | rewrite app_length; lia | exact Hr4 |].
    intros x p Hx Wx. split; [now apply (wf_starts_alt LvLabelled) |]. intros r Hrr.
    rewrite Forall_forall in H. apply (proj1 (H (x, p) Hx) LvLabelled fuel r); [discriminate | exact Wx | |].
    + assert (tokens_size (to_tokens x) <= tokens_size (pairs_tokens to_tokens "|" ps)); [| cbn [fst]; lia].
      clear - Hx. induction ps as [| [y q] l IH]; [destruct Hx |]. cbn [pairs_tokens]. rewrite !tokens_size_app.
      destruct Hx as [[= -> ->] | Hx]; [lia | specialize (IH Hx); lia].
    + destruct Hrr as [-> | (sp & r' & ->)]; [split; [assumption | split; assumption] | repeat split].
  - apply (HAlt (NAltP ps)); auto. intros L fuel' rest' HL Hw' Hf' Hr'.
    inversion Hw'; subst; [| congruence].
    unfold parse_at, parse_alt. destruct Hr' as (Hr1 & Hr2 & Hr3 & Hr4). cbn [to_tokens] in *. erewrite separated_ok; [reflexivity | eassumption | rewrite app_length; lia | exact Hr4 |].
    intros x p Hx Wx. split; [now apply (wf_starts_alt LvLabelled) |]. intros r Hrr.
    rewrite Forall_forall in H. apply (proj1 (H (x, p) Hx) LvLabelled fuel' r); [discriminate | exact Wx | |].
    + assert (tokens_size (to_tokens x) <= tokens_size (pairs_tokens to_tokens "|" ps)); [| cbn [fst]; lia].
      clear - Hx. induction ps as [| [y q] l IH]; [destruct Hx |]. cbn [pairs_tokens]. rewrite !tokens_size_app.
      destruct Hx as [[= -> ->] | Hx]; [lia | specialize (IH Hx); lia].
    + destruct Hrr as [-> | (sp & r' & ->)]; [split; [assumption | split; assumption] | repeat split].
  - match goal with h : wf LvAlt (NLambda _ _ _ _) |- _ => inversion h end.
  - change (parse_expr (parse_term fuel) (to_tokens (NLambda l (arg :: args0) r n) ++ rest) = Some (NLambda l (arg :: args0) r n, rest)).
    cbn [to_tokens app]. unfold parse_expr, pt at 1. rewrite N.eqb_refl. unfold parse_lambda, pt at 1. rewrite parse_punct_some.
    rewrite <- app_assoc. rewrite lambda_args_ok; [| now constructor | | unfold pt; cbn; reflexivity].
    2: { cbn [length]. rewrite !app_length, map_length. cbn [length]. lia. }
    cbn [app]. unfold pt. rewrite parse_punct_some. destruct IHn as [IHn _].
    assert (E : parse_alt (parse_term fuel) (to_tokens n ++ rest) = Some (n, rest)).
    { apply (IHn LvAlt); [discriminate | assumption | | exact Hr]. rewrite tokens_size_cons, tokens_size_app, tokens_size_cons in Hf. lia. }
    now rewrite E.
Qed.

(** ** Parsing then printing *)
Definition reads (p : list token -> option (node * list token)) (L : level) : Prop :=
  forall ts n r, p ts = Some (n, r) -> ts = to_tokens n ++ r /\ wf L n.
Lemma call_terms_inv term fuel : reads term LvTerm -> forall ts l r,
  call_terms term fuel ts = Some (l, r) -> ts = flat_map to_tokens l ++ r /\ l <> [] /\ Forall (wf LvTerm) l.
Proof.
  intros Ht. induction fuel as [| fuel IH]; intros ts l r H; [discriminate H |]. cbn [call_terms] in H.
  destruct (term ts) as [[x ts'] |] eqn:E; [| discriminate H]. apply Ht in E as [-> Wx].
  destruct (starts_term ts').
  - destruct (call_terms term fuel ts') as [[l' r'] |] eqn:E; [| discriminate H]. injection H as <- <-.
    apply IH in E as (-> & _ & Hl). cbn [flat_map]. rewrite app_assoc. split; [reflexivity |]. split; [discriminate |]. now constructor.
  - injection H as <- <-. cbn [flat_map]. rewrite app_nil_r. split; [reflexivity |]. split; [discriminate |]. now constructor.
Qed.
Lemma separated_inv item L (sep : string) fuel : reads item L -> forall ts l r,
  separated item (chr sep) fuel ts = Some (l, r) -> ts = pairs_tokens to_tokens sep l ++ r /\ punctuated (wf L) l.
Proof.
  intros Ht. induction fuel as [| fuel IH]; intros ts l r H; [discriminate H |]. cbn [separated] in H.
  destruct (item ts) as [[x ts'] |] eqn:E; [| discriminate H]. apply Ht in E as [-> Wx].
  destruct (parse_punct (chr sep) ts') as [[sp ts''] |] eqn:Ep.
  - apply parse_punct_inv in Ep as ->.
    destruct (separated item (chr sep) fuel ts'') as [[l' r'] |] eqn:E; [| discriminate H]. injection H as <- <-.
    apply IH in E as (-> & Hl). cbn [pairs_tokens]. split; [| now constructor]. now rewrite <- !app_assoc.
  - injection H as <- <-. cbn [pairs_tokens]. rewrite !app_nil_r. split; [reflexivity | now constructor].
Qed.
Lemma parse_ident_inv ts i r : parse_ident ts = Some (i, r) -> ts = TkIdent i :: r /\ parameter i.
Proof.
  destruct ts as [| [j | | | |] ts]; cbn [parse_ident]; try discriminate. destruct (is_reserved j) eqn:E; [discriminate |]. intros [= <- <-].
  split; [reflexivity |]. now apply is_reserved_iff.
Qed.
Lemma lambda_args_inv fuel : forall ts l r, lambda_args fuel ts = Some (l, r) ->
  ts = map TkIdent l ++ r /\ l <> [] /\ Forall parameter l.
Proof.
  induction fuel as [| fuel IH]; intros ts l r H; [discriminate H |]. cbn [lambda_args] in H.
  destruct (parse_ident ts) as [[i ts'] |] eqn:E; [| discriminate H]. apply parse_ident_inv in E as [-> Hp].
  destruct ts' as [| t ts']; [discriminate H |]. destruct t; try discriminate H.
  - destruct (lambda_args fuel (TkIdent i0 :: ts')) as [[l' r'] |] eqn:E; [| discriminate H]. injection H as <- <-.
    apply IH in E as (-> & _ & Hl). split; [reflexivity |]. split; [discriminate | now constructor].
  - destruct (N.eqb c (chr "/")); [| discriminate H]. injection H as <- <-. split; [reflexivity |]. split; [discriminate | now constructor].
Qed.
Lemma let_args_inv fuel : forall ts l r, let_args fuel ts = Some (l, r) -> ts = map TkIdent l ++ r /\ Forall parameter l.
Proof.
  induction fuel as [| fuel IH]; intros ts l r H; [discriminate H |]. cbn [let_args] in H.
  destruct ts as [| t ts]; [discriminate H |]. destruct t; try discriminate H.
  - destruct (parse_ident (TkIdent i :: ts)) as [[j ts'] |] eqn:E; [| discriminate H]. apply parse_ident_inv in E as [E Hp].
    injection E as -> ->. destruct (let_args fuel ts') as [[l' r'] |] eqn:E; [| discriminate H]. injection H as <- <-.
    apply IH in E as (-> & Hl). split; [reflexivity | now constructor].
  - destruct (N.eqb c (chr "=")); [| discriminate H]. injection H as <- <-. split; [reflexivity | constructor].
Qed.

Section LevelsInv.
  Variable term : list token -> option (node * list token).
  Hypothesis Hterm : reads term LvTerm.
  Lemma parse_call_inv : reads (parse_call term) LvCall.
  Proof.
    intros ts n r H. unfold parse_call in H. destruct (call_terms term _ ts) as [[l r'] |] eqn:E; [| discriminate H]. injection H as <- <-.
    apply call_terms_inv in E as (-> & Hne & Hl); [| exact Hterm]. split; [reflexivity |].
    destruct l as [| t l]; [congruence |]. inversion Hl; subst. now constructor.
  Qed.
  Lemma parse_cat_inv : reads (parse_cat term) LvCat.
  Proof.
    intros ts n r H. unfold parse_cat in H. destruct (separated _ _ _ ts) as [[l r'] |] eqn:E; [| discriminate H]. injection H as <- <-.
    apply (separated_inv _ LvCall) in E as (-> & Hl); [| exact parse_call_inv]. split; [reflexivity | now constructor].
  Qed.
  Lemma parse_labelled_inv : reads (parse_labelled term) LvLabelled.
  Proof.
    intros ts n r H. unfold parse_labelled in H. destruct (parse_cat term ts) as [[c ts'] |] eqn:E; [| discriminate H].
    apply parse_cat_inv in E as [-> Wc]. destruct (parse_punct (chr ":") ts') as [[sp ts''] |] eqn:Ep.
    - apply parse_punct_inv in Ep as ->. destruct ts'' as [| [] ts'']; try discriminate H. injection H as <- <-.
      split; [| now constructor]. cbn [to_tokens]. now rewrite <- app_assoc.
    - injection H as <- <-. cbn [to_tokens]. rewrite app_nil_r. split; [reflexivity | now constructor].
  Qed.
  Lemma parse_alt_inv : reads (parse_alt term) LvAlt.
  Proof.
    intros ts n r H. unfold parse_alt in H. destruct (separated _ _ _ ts) as [[l r'] |] eqn:E; [| discriminate H]. injection H as <- <-.
    apply (separated_inv _ LvLabelled) in E as (-> & Hl); [| exact parse_labelled_inv]. split; [reflexivity | now constructor].
  Qed.
  Lemma parse_expr_inv : reads (parse_expr term) LvExpr.
  Proof.
    assert (HA : reads (parse_alt term) LvExpr).
    { intros ts n r H. apply parse_alt_inv in H as [-> Hw]. split; [reflexivity | now constructor]. }
    intros ts n r H. unfold parse_expr in H. destruct ts as [| [] ts]; try (now apply HA in H).
    destruct (N.eqb_spec c (chr "/")) as [-> | _]; [| now apply HA in H]. clear HA. unfold parse_lambda in H.
    rewrite parse_punct_some in H. destruct (lambda_args _ ts) as [[args ts2] |] eqn:E; [| discriminate H].
    apply lambda_args_inv in E as (-> & Hne & Hp). destruct (parse_punct (chr "/") ts2) as [[rs ts3] |] eqn:Ep; [| discriminate H].
    apply parse_punct_inv in Ep as ->. destruct (parse_alt term ts3) as [[e rest] |] eqn:Ea; [| discriminate H].
    apply parse_alt_inv in Ea as [-> We]. injection H as <- <-. destruct args as [| a args]; [congruence |]. inversion Hp; subst.
    split; [| now constructor]. cbn [to_tokens app]. rewrite <- app_assoc. reflexivity.
  Qed.
End LevelsInv.
Lemma parse_term_inv fuel : reads (parse_term fuel) LvTerm.
Proof.
  induction fuel as [| fuel IH]; intros ts n r H; [discriminate H |]. cbn [parse_term] in H.
  destruct ts as [| [] ts]; try discriminate H.
  - destruct (is_word (lit "_") i) eqn:E; injection H as <- <-.
    + apply is_word_iff in E as [Hr Hs]. split; [| constructor]. cbn. destruct i; cbn in *. subst. reflexivity.
    + split; [reflexivity | constructor]. intros Hu. apply is_word_iff in Hu. congruence.
  - injection H as <- <-. split; [reflexivity | constructor].
  - destruct (N.eqb_spec c (chr "!")) as [-> | _]; [| discriminate H].
    destruct (parse_term fuel ts) as [[t r'] |] eqn:E; [| discriminate H]. injection H as <- <-. apply IH in E as [-> Wt].
    split; [reflexivity | now constructor].
  - destruct (parse_expr (parse_term fuel) ts0) as [[e [| ? ?]] |] eqn:E; try discriminate H. injection H as <- <-.
    apply parse_expr_inv in E as [-> We]; [| exact IH]. rewrite app_nil_r. split; [reflexivity | now constructor].
Qed.

(** ** Programs *)
Lemma is_kw_let_match sp : is_kw "let" (kw "match" sp) = false.
Proof. reflexivity. Qed.
Lemma is_kw_word s k : is_kw s (kw s k) = true.
Proof. unfold is_kw, kw, is_word. cbn. rewrite (proj2 (rstr_eqb_eq _ _) eq_refl). reflexivity. Qed.
Lemma parse_kw_word s k ts : parse_kw s (kw s k :: ts) = Some (k, ts).
Proof. unfold parse_kw, kw, is_word. cbn. now rewrite (proj2 (rstr_eqb_eq _ _) eq_refl). Qed.
Lemma parse_kw_inv s ts k r : parse_kw s ts = Some (k, r) -> ts = kw s k :: r.
Proof.
  destruct ts as [| [j | | | |] ts]; cbn [parse_kw]; try discriminate. destruct (is_word (lit s) j) eqn:E; [| discriminate]. intros [= <- <-].
  apply is_word_iff in E as [Hr Hs]. unfold kw. destruct j; cbn in *. subst. reflexivity.
Qed.

Lemma print_parse_stmt s : forall fuel rest, wf_stmt s -> tokens_size (stmt_tokens s) <= fuel ->
  parse_stmt fuel (stmt_tokens s ++ rest) = Some (s, rest).
Proof.
  induction s as [k e semi | k nm args eq e semi next IH]; intros fuel rest Hw Hf; inversion Hw; subst;
    cbn [stmt_tokens app] in *; (destruct fuel as [| fuel]; [rewrite tokens_size_cons in Hf; cbn in Hf; lia |]).
  - cbn [parse_stmt]. rewrite is_kw_let_match, parse_kw_word. rewrite <- app_assoc. cbn [app].
    assert (E : parse_expr (parse_term fuel) (to_tokens e ++ pt ";" semi :: rest) = Some (e, pt ";" semi :: rest)).
    { apply (print_parse e LvExpr); [assumption | | repeat split]. rewrite tokens_size_cons, tokens_size_app in Hf. cbn in Hf. lia. }
    rewrite E. unfold pt. rewrite parse_punct_some. reflexivity.
  - rewrite !tokens_size_cons, tokens_size_app, tokens_size_cons, tokens_size_app, tokens_size_cons in Hf. cbn [kw token_size pt] in Hf.
    cbn [parse_stmt]. rewrite is_kw_word, parse_kw_word. cbn [parse_any].
    rewrite <- app_assoc. rewrite let_args_ok; [| assumption | rewrite app_length, map_length; lia | reflexivity].
    cbn [app]. unfold pt at 1. rewrite parse_punct_some. rewrite <- app_assoc. cbn [app].
    assert (E : parse_expr (parse_term fuel) (to_tokens e ++ pt ";" semi :: stmt_tokens next ++ rest)
      = Some (e, pt ";" semi :: stmt_tokens next ++ rest)).
    { apply (print_parse e LvExpr); [assumption | lia | repeat split]. }
    rewrite E. unfold pt. rewrite parse_punct_some. rewrite IH; [reflexivity | assumption | lia].
Qed.
Lemma parse_stmt_inv fuel : forall ts s r, parse_stmt fuel ts = Some (s, r) -> ts = stmt_tokens s ++ r /\ wf_stmt s.
Proof.
  induction fuel as [| fuel IH]; intros ts s r H; [discriminate H |]. cbn [parse_stmt] in H.
  destruct (match ts with [] => false | t :: _ => is_kw "let" t end).
  - destruct (parse_kw "let" ts) as [[k ts1] |] eqn:E; [| discriminate H]. apply parse_kw_inv in E as ->.
    destruct ts1 as [| [nm | | | |] ts2]; try discriminate H. cbn [parse_any] in H.
    destruct (let_args _ ts2) as [[args ts3] |] eqn:E; [| discriminate H]. apply let_args_inv in E as [-> Hp].
    destruct (parse_punct (chr "=") ts3) as [[eq ts4] |] eqn:E; [| discriminate H]. apply parse_punct_inv in E as ->.
    destruct (parse_expr (parse_term fuel) ts4) as [[e ts5] |] eqn:E; [| discriminate H].
    apply parse_expr_inv in E as [-> We]; [| apply parse_term_inv].
    destruct (parse_punct (chr ";") ts5) as [[semi ts6] |] eqn:E; [| discriminate H]. apply parse_punct_inv in E as ->.
    destruct (parse_stmt fuel ts6) as [[next r'] |] eqn:E; [| discriminate H]. apply IH in E as [-> Wn]. injection H as <- <-.
    split; [| now constructor]. cbn [stmt_tokens app]. rewrite <- app_assoc. cbn [app]. rewrite <- app_assoc. reflexivity.
  - destruct (parse_kw "match" ts) as [[k ts1] |] eqn:E; [| discriminate H]. apply parse_kw_inv in E as ->.
    destruct (parse_expr (parse_term fuel) ts1) as [[e ts2] |] eqn:E; [| discriminate H].
    apply parse_expr_inv in E as [-> We]; [| apply parse_term_inv].
    destruct (parse_punct (chr ";") ts2) as [[semi r'] |] eqn:E; [| discriminate H]. apply parse_punct_inv in E as ->. injection H as <- <-.
    split; [| now constructor]. cbn [stmt_tokens app]. rewrite <- app_assoc. reflexivity.
Qed.

Theorem parse_program_iff ts s : parse_program ts = Some s <-> wf_stmt s /\ ts = stmt_tokens s.
Proof.
  unfold parse_program. split.
  - destruct (parse_stmt _ ts) as [[s' [| ? ?]] |] eqn:E; intros H; try discriminate H. injection H as ->.
    apply parse_stmt_inv in E as [-> Hw]. rewrite app_nil_r. split; [exact Hw | reflexivity].
  - intros [Hw ->]. pose proof (print_parse_stmt s (S (tokens_size (stmt_tokens s))) [] Hw ltac:(lia)) as E.
    rewrite app_nil_r in E. now rewrite E.
Qed.
