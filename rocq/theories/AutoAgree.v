(** * AutoAgree: what autonibble makes of a program is what chomp makes of it. *)
From Coq Require Import String.
From Verif Require Export AutoRead.
From Coq Require Import List Lia.
Open Scope list_scope.

(** ** Contexts and outcomes *)
Inductive same_content : content -> content -> Prop :=
| same_word i : id_raw i = false -> same_content (Spanless (id_sym i)) (Spanned i).
Definition same_ctx : context -> context -> Prop := Forall2 same_content.
Definition agree {A B} (R : A -> B -> Prop) (m : conv A) (m' : conv B) : Prop :=
  forall ctx ctx', same_ctx ctx ctx' -> same_outcome R (fst (m ctx)) (fst (m' ctx')) /\ same_ctx (snd (m ctx)) (snd (m' ctx')).
Lemma agree_ret {A B} (R : A -> B -> Prop) x y : R x y -> agree R (ret x) (ret y).
Proof. intros H ctx ctx' Hc. split; [now constructor | exact Hc]. Qed.
Lemma agree_bind {A B A' B'} (R : A -> B -> Prop) (S : A' -> B' -> Prop) m m' k k' :
  agree R m m' -> (forall x y, R x y -> agree S (k x) (k' y)) -> agree S (bind m k) (bind m' k').
Proof.
  intros Hm Hk ctx ctx' Hc. destruct (Hm _ _ Hc) as [H1 H2]. unfold bind. destruct (m ctx) as [r c], (m' ctx') as [r' c']. cbn [fst snd] in H1, H2. destruct H1 as [x y H1 | n n' H1].
  - now apply Hk.
  - cbn [fst snd]. split; [now constructor | exact H2].
Qed.
Lemma agree_impl {A B} (R S : A -> B -> Prop) m m' : (forall x y, R x y -> S x y) -> agree R m m' -> agree S m m'.
Proof. intros H Hm ctx ctx' Hc. destruct (Hm _ _ Hc) as [H1 H2]. split; [| exact H2]. destruct H1; constructor; auto. Qed.
Lemma same_ctx_length a b : same_ctx a b -> length a = length b.
Proof. induction 1; cbn; congruence. Qed.
Lemma same_ctx_skipn k a b : same_ctx a b -> same_ctx (skipn k a) (skipn k b).
Proof. intros H. revert k. induction H; intros [| k]; cbn [skipn]; try constructor; auto. Qed.
Lemma same_ctx_names ns ms : Forall2 same_name ns ms -> same_ctx (rev (map n_content ns)) (rev (map n_content ms)).
Proof.
  induction 1 as [| n m ns ms H _ IH]; [constructor |]. cbn [map rev]. apply Forall2_app; [exact IH |]. constructor; [| constructor]. destruct H. now constructor.
Qed.
Lemma agree_variables {A B} (R : A -> B -> Prop) ns ms m m' : Forall2 same_name ns ms -> keeps m' -> agree R m m' -> agree R (with_variables ns m) (with_variables ms m').
Proof.
  intros Hn Hk Hm ctx ctx' Hc. unfold with_variables. assert (Hc2 : same_ctx (rev (map n_content ns) ++ ctx) (rev (map n_content ms) ++ ctx')) by (apply Forall2_app; [now apply same_ctx_names | exact Hc]).
  destruct (Hm _ _ Hc2) as [H1 H2]. specialize (Hk (rev (map n_content ms) ++ ctx')). destruct (m (rev (map n_content ns) ++ ctx)) as [r c], (m' (rev (map n_content ms) ++ ctx')) as [r' c']. cbn [fst snd] in H1, H2, Hk. subst c'.
  pose proof (same_ctx_length _ _ H2) as L. pose proof (same_ctx_length _ _ Hc) as L'. rewrite L, L', app_length.
  destruct (Nat.ltb_spec (length (rev (map n_content ms)) + length ctx') (length ctx')); [lia |]. cbn [fst snd]. split; [exact H1 | now apply same_ctx_skipn].
Qed.
Lemma position_agree i ctx ctx' : id_raw i = false -> same_ctx ctx ctx' -> position (Spanless (id_sym i)) ctx = position (Spanned i) ctx'.
Proof.
  intros Hi H. induction H as [| a b ctx ctx' Hab _ IH]; [reflexivity |]. destruct Hab as [j Hj]. cbn [position content_eqb]. unfold ident_eqb. rewrite Hi, Hj. cbn [Bool.eqb andb]. now rewrite IH.
Qed.

(** ** Names of expressions *)
Lemma same_expr_ann x y : same_expr x y -> same_ann (e_ann x) (e_ann y).
Proof. now destruct 1. Qed.
Lemma same_expr_name x y : same_expr x y -> same_oname (e_name x) (e_name y).
Proof. apply same_expr_ann. Qed.
Lemma same_set_ann x y a b : same_expr x y -> same_ann a b -> same_expr (set_ann a x) (set_ann b y).
Proof. intros H Hab. destruct H; constructor; assumption. Qed.
Lemma same_merge a b c d : same_oname a b -> same_oname c d -> same_oname (merge a c) (merge b d).
Proof.
  intros [| x y H] [| u v H']; cbn [merge]; try constructor; auto. destruct H as [i k Hi], H' as [j l Hj]. cbn [n_kind]. destruct (kind_ge k l); now repeat constructor.
Qed.
Lemma no_ann sp sp' : same_ann (Ann None sp) (Ann None sp').
Proof. constructor. Qed.

(** ** Iterators *)
Definition same_id (x : tree) (i : ident) : Prop := id_raw i = false /\ id_sym i = yield x.
Lemma names_items t l : names t l -> forall fuel, tree_size (into_iter t) <= fuel -> Forall2 same_id (drain opt3_next fuel (into_iter t)) l.
Proof.
  intros H. induction H as [x o i Hx Ho | x w t i l Hx Hw _ IH]; intros fuel Hf; (destruct fuel as [| fuel]; [cbn in Hf; lia |]); cbn [into_iter drain opt3_next].
  - constructor; [apply Hx |]. destruct Ho as [-> | (w & _ & ->)]; destruct fuel; constructor.
  - constructor; [apply Hx |]. apply IH. cbn [into_iter tree_size list_sum map fold_right] in Hf |- *. lia.
Qed.
Lemma same_new k xs l : Forall2 same_id xs l -> Forall2 same_name (map (fun i => Name (content_of i) k) xs) (map (fun i => Name (Spanned i) k) l).
Proof. induction 1 as [| x i xs l [Hr Hs] _ IH]; constructor; [| exact IH]. unfold content_of. rewrite <- Hs. now constructor. Qed.

(** ** Expressions *)
Definition auto_level (L : level) (term : tree -> conv nexpr) : tree -> conv nexpr :=
  match L with LvTerm => term | LvCall => auto_call term | LvCat => auto_cat term | LvLabelled => auto_labelled term | LvAlt => auto_alt term | LvExpr => auto_expr term end.
Definition same_rest (es : list nexpr) (ps : list (span * nexpr)) : Prop := Forall2 (fun e p => same_expr e (snd p)) es ps.
Lemma same_rest_pairs es ps : same_rest es ps -> Forall2 (fun p q : span * nexpr => same_expr (snd p) (snd q)) (map (fun e => (call_site, e)) es) ps.
Proof. induction 1; constructor; auto. Qed.
Section Agree.
Context (join : span -> span -> option span).
Lemma agree_all :
  (forall L t n, reads L t n -> printable n -> forall fuel, tree_size t <= fuel -> agree same_expr (auto_level L (auto_term fuel) t) (convert join n)) /\
  (forall t ns, reads_terms t ns -> Forall printable ns -> forall fuel k, tree_size t <= fuel -> tree_size t <= k ->
    agree (Forall2 same_expr) (collect (auto_term fuel) (drain opt13_next k t)) (convert_args (convert join) ns)) /\
  (forall L t p ps, reads_rest L t p ps -> Forall (fun x => printable (fst x)) ps -> forall fuel k sp, tree_size t <= fuel -> tree_size t <= k ->
    agree same_rest (collect (auto_level L (auto_term fuel)) (drain separated_next k t)) (convert_rest (convert join) sp ps)).
Proof.
  apply reads_ind3.
  - intros sp _ fuel Hf. destruct fuel as [| fuel]; [cbn in Hf; lia |]. apply agree_ret. constructor. constructor.
  - intros c v sp (y & l & -> & Hv) P fuel Hf. destruct fuel as [| fuel]; [cbn in Hf; lia |]. cbn [auto_level auto_term]. inversion P as [| | ? ? Ps | | | | | | |]; subst.
    rewrite items_contents, (proj1 (chars_of_checked _ _ Hv) Ps). apply agree_ret. constructor. constructor.
  - intros o e n sp _ _ IH P fuel Hf. destruct fuel as [| fuel]; [cbn in Hf; lia |]. inversion P; subst. cbn [auto_level auto_term convert]. apply (IH ltac:(assumption) fuel). cbn in Hf. lia.
  - intros o t n sp _ _ IH P fuel Hf. destruct fuel as [| fuel]; [cbn in Hf; lia |]. inversion P; subst. cbn [auto_level auto_term convert].
    apply (agree_bind same_expr); [apply IH; [assumption | cbn in Hf; lia] |]. intros x y Hxy. apply agree_ret. now constructor; [constructor |].
  - intros x i (_ & Hr & Hs) _ fuel Hf. destruct fuel as [| fuel]; [cbn in Hf; lia |]. cbn [auto_level auto_term convert]. intros ctx ctx' Hc. unfold auto_variable, lookup, content_of. cbn [n_content new_variable].
    rewrite <- Hs, (position_agree i _ _ Hr Hc). destruct (position (Spanned i) ctx') as [k |]; cbn [fst snd]; (split; [| exact Hc]).
    + constructor. constructor. constructor. now constructor.
    + constructor. now constructor.
  - intros t n rest ns _ IH1 _ IH2 P fuel Hf. inversion P as [| | | | | ? Ps | | | |]; subst. apply Forall_cons_iff in Ps as [Pn Pns]. cbn [tree_size list_sum map fold_right] in Hf. cbn [auto_level auto_call convert].
    apply (agree_bind same_expr); [apply (IH1 Pn); cbn in Hf; lia |]. intros x y Hxy. apply (agree_bind (Forall2 same_expr)); [apply (IH2 Pns); unfold items; cbn in Hf |- *; lia |].
    intros l m Hlm. destruct Hlm; apply agree_ret; [exact Hxy |]. constructor; [constructor | exact Hxy | now constructor].
  - intros t n rest p ps _ IH1 _ IH2 P fuel Hf. inversion P as [| | | | | | ? Ps | | |]; subst. apply Forall_cons_iff in Ps as [Pn Pns]. cbn [auto_level auto_cat convert].
    apply (agree_bind same_expr); [apply (IH1 Pn); cbn in Hf; lia |]. intros x y Hxy. apply (agree_bind same_rest); [apply (IH2 Pns); cbn in Hf |- *; lia |].
    intros l m Hlm. pose proof (same_rest_pairs _ _ Hlm) as Hp. destruct Hlm; apply agree_ret; [exact Hxy |]. constructor; [constructor | exact Hxy | exact Hp].
  - intros t n _ IH P fuel Hf. inversion P; subst. cbn [auto_level auto_labelled convert]. apply (agree_bind same_expr); [apply IH; [assumption | cbn in Hf; lia] |]. intros x y Hxy. apply agree_ret.
    apply same_set_ann; [exact Hxy |]. now apply same_expr_name.
  - intros t n o1 x o2 sp i _ IH _ (_ & Hr & Hs) _ P fuel Hf. inversion P; subst. cbn [auto_level auto_labelled convert]. apply (agree_bind same_expr); [apply IH; [assumption | cbn in Hf; lia] |]. intros u v Huv. apply agree_ret.
    apply same_set_ann; [exact Huv |]. unfold same_ann. cbn [a_name]. apply same_merge; [| now apply same_expr_name]. constructor. unfold content_of. rewrite <- Hs. now constructor.
  - intros t n rest p ps _ IH1 _ IH2 P fuel Hf. inversion P as [| | | | | | | | ? Ps |]; subst. apply Forall_cons_iff in Ps as [Pn Pns]. cbn [auto_level auto_alt convert].
    apply (agree_bind same_expr); [apply (IH1 Pn); cbn in Hf; lia |]. intros x y Hxy. apply (agree_bind same_rest); [apply (IH2 Pns); cbn in Hf |- *; lia |].
    intros l m Hlm. pose proof (same_rest_pairs _ _ Hlm) as Hp. destruct Hlm; apply agree_ret; [exact Hxy |]. constructor; [constructor | exact Hxy | exact Hp].
  - intros t n _ IH P fuel Hf. cbn [auto_level auto_expr]. apply (IH P). cbn in Hf. lia.
  - intros o1 ns o2 t n l r arg args _ Hn _ _ IH P fuel Hf. inversion P; subst. cbn [auto_level auto_expr auto_lambda convert].
    assert (Hs := same_new KVariable _ _ (names_items _ _ Hn _ (le_n _))). fold (items opt3_next (into_iter ns)) in Hs.
    apply (agree_bind same_expr); [apply agree_variables; [exact Hs | apply convert_keeps | apply IH; [assumption | cbn in Hf; lia]] |].
    intros x y Hxy. apply agree_ret. constructor; [constructor | exact Hs | exact Hxy].
  - intros _ fuel k _ _. destruct k; apply agree_ret; constructor.
  - intros w _ _ fuel k _ _. destruct k; apply agree_ret; constructor.
  - intros w t n rest ns _ _ IH1 _ IH2 P fuel k Hf Hk. apply Forall_cons_iff in P as [Pn Pns]. destruct k as [| k]; [cbn in Hk; lia |]. cbn [drain opt13_next collect convert_args].
    apply (agree_bind same_expr); [apply (IH1 Pn); cbn in Hf; lia |]. intros x y Hxy. apply (agree_bind (Forall2 same_expr)); [apply (IH2 Pns); cbn in Hf, Hk |- *; lia |].
    intros l m Hlm. apply agree_ret. now constructor.
  - intros L _ fuel k sp _ _. destruct k; apply agree_ret; constructor.
  - intros L o t n rest p ps sp _ _ IH1 _ IH2 P fuel k sp' Hf Hk. apply Forall_cons_iff in P as [Pn Pns]. destruct k as [| k]; [cbn in Hk; lia |]. cbn [drain separated_next collect convert_rest].
    apply (agree_bind same_expr); [apply (IH1 Pn); cbn in Hf; lia |]. intros x y Hxy. apply (agree_bind same_rest); [apply (IH2 Pns); cbn in Hf, Hk |- *; lia |].
    intros l m Hlm. apply agree_ret. now constructor.
Qed.
End Agree.

(** ** A literal that is not a string is never converted *)
Definition oks {A} (m : conv A) (P : Prop) : Prop := forall ctx x ctx', m ctx = (Ok x, ctx') -> P.
Lemma oks_bind {A B} (m : conv A) (k : A -> conv B) P Q : oks m P -> (forall x, oks (k x) Q) -> oks (bind m k) (P /\ Q).
Proof.
  intros Hm Hk ctx x ctx' H. unfold bind in H. destruct (m ctx) as [[y | | |] c] eqn:E; try discriminate. split; [now apply (Hm ctx y c) | now apply (Hk y c x ctx')].
Qed.
Lemma oks_bind1 {A B} (m : conv A) (k : A -> conv B) P : oks m P -> oks (bind m k) P.
Proof. intros Hm ctx x ctx' H. unfold bind in H. destruct (m ctx) as [[y | | |] c] eqn:E; try discriminate. now apply (Hm ctx y c). Qed.
Lemma oks_bind2 {A B} (m : conv A) (k : A -> conv B) Q : (forall x, oks (k x) Q) -> oks (bind m k) Q.
Proof. intros Hk ctx x ctx' H. unfold bind in H. destruct (m ctx) as [[y | | |] c] eqn:E; try discriminate. now apply (Hk y c x ctx'). Qed.
Lemma oks_impl {A} (m : conv A) (P Q : Prop) : (P -> Q) -> oks m P -> oks m Q.
Proof. intros H Hm ctx x ctx' E. apply H. now apply (Hm ctx x ctx'). Qed.
Lemma oks_variables {A} ns (m : conv A) P : oks m P -> oks (with_variables ns m) P.
Proof.
  intros Hm ctx x ctx' H. unfold with_variables in H. destruct (m (rev (map n_content ns) ++ ctx)) as [r c] eqn:E. destruct (Nat.ltb (length c) (length ctx)); [discriminate |]. injection H as -> _. now apply (Hm _ x c E).
Qed.
Lemma oks_all :
  (forall L t n, reads L t n -> forall fuel, tree_size t <= fuel -> oks (auto_level L (auto_term fuel) t) (printable n)) /\
  (forall t ns, reads_terms t ns -> forall fuel k, tree_size t <= fuel -> tree_size t <= k -> oks (collect (auto_term fuel) (drain opt13_next k t)) (Forall printable ns)) /\
  (forall L t p ps, reads_rest L t p ps -> forall fuel k, tree_size t <= fuel -> tree_size t <= k ->
    oks (collect (auto_level L (auto_term fuel)) (drain separated_next k t)) (Forall (fun x => printable (fst x)) ps)).
Proof.
  apply reads_ind3.
  - intros sp fuel Hf ctx x ctx' _. constructor.
  - intros c v sp (y & l & -> & Hv) fuel Hf. destruct fuel as [| fuel]; [cbn in Hf; lia |]. cbn [auto_level auto_term]. rewrite items_contents. intros ctx x ctx' H.
    destruct (chars_of (y :: l)) as [s |] eqn:E; [| discriminate]. constructor. now apply (proj2 (chars_of_checked _ _ Hv) s).
  - intros o e n sp _ _ IH fuel Hf. destruct fuel as [| fuel]; [cbn in Hf; lia |]. cbn [auto_level auto_term]. apply (oks_impl _ (printable n)); [now constructor |]. apply (IH fuel). cbn in Hf. lia.
  - intros o t n sp _ _ IH fuel Hf. destruct fuel as [| fuel]; [cbn in Hf; lia |]. cbn [auto_level auto_term]. apply (oks_impl _ (printable n)); [now constructor |]. apply oks_bind1, IH. cbn in Hf. lia.
  - intros x i _ fuel Hf ctx y ctx' _. constructor.
  - intros t n rest ns _ IH1 _ IH2 fuel Hf. cbn [auto_level auto_call]. apply (oks_impl _ (printable n /\ Forall printable ns)); [intros [H1 H2]; constructor; now constructor |].
    apply oks_bind; [apply IH1; cbn in Hf; lia |]. intros x. apply oks_bind1. apply IH2; cbn in Hf |- *; lia.
  - intros t n rest p ps _ IH1 _ IH2 fuel Hf. cbn [auto_level auto_cat]. apply (oks_impl _ (printable n /\ Forall (fun x => printable (fst x)) ps)); [intros [H1 H2]; constructor; now constructor |].
    apply oks_bind; [apply IH1; cbn in Hf; lia |]. intros x. apply oks_bind1. apply IH2; cbn in Hf |- *; lia.
  - intros t n _ IH fuel Hf. cbn [auto_level auto_labelled]. apply (oks_impl _ (printable n)); [now constructor |]. apply oks_bind1, IH. cbn in Hf. lia.
  - intros t n o1 x o2 sp i _ IH _ _ _ fuel Hf. cbn [auto_level auto_labelled]. apply (oks_impl _ (printable n)); [now constructor |]. apply oks_bind1, IH. cbn in Hf. lia.
  - intros t n rest p ps _ IH1 _ IH2 fuel Hf. cbn [auto_level auto_alt]. apply (oks_impl _ (printable n /\ Forall (fun x => printable (fst x)) ps)); [intros [H1 H2]; constructor; now constructor |].
    apply oks_bind; [apply IH1; cbn in Hf; lia |]. intros x. apply oks_bind1. apply IH2; cbn in Hf |- *; lia.
  - intros t n _ IH fuel Hf. cbn [auto_level auto_expr]. apply IH. cbn in Hf. lia.
  - intros o1 ns o2 t n l r arg args _ Hn _ _ IH fuel Hf. cbn [auto_level auto_expr auto_lambda]. apply (oks_impl _ (printable n)); [now constructor |]. apply oks_bind1, oks_variables, IH. cbn in Hf. lia.
  - intros fuel k _ _ ctx x ctx' _. constructor.
  - intros w _ fuel k _ _ ctx x ctx' _. constructor.
  - intros w t n rest ns _ _ IH1 _ IH2 fuel k Hf Hk. destruct k as [| k]; [cbn in Hk; lia |]. cbn [drain opt13_next collect].
    apply (oks_impl _ (printable n /\ Forall printable ns)); [intros [H1 H2]; now constructor |]. apply oks_bind; [apply IH1; cbn in Hf; lia |]. intros x. apply oks_bind1. apply IH2; cbn in Hf, Hk |- *; lia.
  - intros L fuel k _ _ ctx x ctx' _. constructor.
  - intros L o t n rest p ps sp _ _ IH1 _ IH2 fuel k Hf Hk. destruct k as [| k]; [cbn in Hk; lia |]. cbn [drain separated_next collect].
    apply (oks_impl _ (printable n /\ Forall (fun x => printable (fst x)) ps)); [intros [H1 H2]; now constructor |]. apply oks_bind; [apply IH1; cbn in Hf; lia |]. intros x. apply oks_bind1. apply IH2; cbn in Hf, Hk |- *; lia.
Qed.

(** ** Programs *)
Lemma goal_merge o : merge o (Some (new_variable (Spanless (lit "Ast")))) = goal_name o.
Proof. destruct o as [[c []] |]; reflexivity. Qed.
Lemma agree_stmt join t st : reads_stmt t st -> printable_stmt st -> forall fuel, tree_size t <= fuel -> agree same_program (auto_stmt fuel t) (convert_stmt join st).
Proof.
  intros H. induction H as [k s e n o semi _ He _ | k s ns nm args o1 eq e n o2 semi t next _ Hn _ He _ _ IH]; intros P fuel Hf; (destruct fuel as [| fuel]; [cbn in Hf; lia |]); cbn [printable_stmt] in P; cbn [auto_stmt convert_stmt].
  - intros ctx ctx' Hc. destruct (proj1 (agree_all join) _ _ _ He P fuel ltac:(cbn in Hf; lia) ctx ctx' Hc) as [H1 H2]. cbn [auto_level] in H1, H2. unfold bind. destruct (auto_expr (auto_term fuel) e ctx) as [r c], (convert join n ctx') as [r' c'].
    cbn [fst snd] in H1, H2. destruct H1 as [x y H1 | a b H1]; cbn [fst snd ret]; (split; [| exact H2]); constructor; [| exact H1]. rewrite goal_merge. now constructor.
  - destruct P as [Pe Pn]. assert (Hs := names_items _ _ Hn _ (le_n _)). fold (items opt3_next (into_iter ns)) in Hs. destruct (items opt3_next (into_iter ns)) as [| x xs]; [inversion Hs |].
    inversion Hs as [| ? ? ? ? Hx Hxs]; subst. assert (He' := proj1 (agree_all join) _ _ _ He Pe fuel ltac:(cbn in Hf; lia)). cbn [auto_level] in He'.
    assert (Hm : same_name (new_let (content_of x)) (new_let (Spanned nm))) by (destruct Hx as [Hr Hy]; unfold content_of; rewrite <- Hy; now constructor).
    apply (agree_bind same_expr).
    { assert (Ha := same_new KVariable _ _ Hxs). destruct Hxs; [exact He' |]. apply (agree_bind same_expr); [apply agree_variables; [exact Ha | apply convert_keeps | exact He'] |].
      intros u v Huv. apply agree_ret. constructor; [constructor | exact Ha | exact Huv]. }
    intros u v Huv. apply (agree_bind (fun _ _ => True)).
    { intros ctx ctx' Hc. cbn [fst snd]. split; [now constructor |]. constructor; [destruct Hm; now constructor | exact Hc]. }
    intros _ _ _. apply (agree_bind same_program); [apply IH; [exact Pn | cbn in Hf; lia] |]. intros b b' Hb. apply agree_ret. constructor; [constructor | exact Hm | | exact Hb].
    apply same_set_ann; [exact Huv |]. constructor. exact Hm.
Qed.
Lemma oks_stmt t st : reads_stmt t st -> forall fuel, tree_size t <= fuel -> oks (auto_stmt fuel t) (printable_stmt st).
Proof.
  intros H. induction H as [k s e n o semi _ He _ | k s ns nm args o1 eq e n o2 semi t next _ Hn _ He _ _ IH]; intros fuel Hf; (destruct fuel as [| fuel]; [cbn in Hf; lia |]); cbn [auto_stmt printable_stmt].
  - apply (proj1 oks_all _ _ _ He fuel). cbn in Hf. lia.
  - assert (He' := proj1 oks_all _ _ _ He fuel ltac:(cbn in Hf; lia)). cbn [auto_level] in He'. destruct (items opt3_next (into_iter ns)) as [| x xs]; [intros ctx y ctx' E; discriminate |].
    apply oks_bind; [destruct xs; [exact He' |]; apply oks_bind1, oks_variables, He' |]. intros u. apply oks_bind2. intros _. apply oks_bind1, IH. cbn in Hf. lia.
Qed.
Lemma skip_reads t st : reads_ast t st -> exists t', reads_stmt t' st /\ skip_branches t = NAlt 1 t' /\ tree_size t' <= tree_size t.
Proof.
  intros H. induction H as [t st H | x t st _ _ (t' & H & E & Hl)].
  - exists t. split; [exact H |]. split; [reflexivity | cbn; lia].
  - exists t'. split; [exact H |]. split; [exact E | cbn; lia].
Qed.
Lemma agree_ast join t st : reads_ast t st -> printable_stmt st -> same_outcome same_program (auto_convert t) (convert_program join st).
Proof.
  intros H P. destruct (skip_reads _ _ H) as (t' & Ht & E & Hl). unfold auto_convert, auto_ast, convert_program. rewrite E. apply (agree_stmt join t' st Ht P (tree_size t) Hl [] []). constructor.
Qed.
Lemma oks_ast t st e : reads_ast t st -> auto_convert t = Ok e -> printable_stmt st.
Proof.
  intros H Ho. destruct (skip_reads _ _ H) as (t' & Ht & E & Hl). unfold auto_convert, auto_ast in Ho. rewrite E in Ho. destruct (auto_stmt (tree_size t) t' []) as [r c] eqn:Er. cbn [fst] in Ho. subst r.
  now apply (oks_stmt t' st Ht _ Hl [] e c).
Qed.

(** ** Nothing but these outcomes *)
Definition tame {A} (m : conv A) : Prop := forall ctx, match fst (m ctx) with Ok _ | Panic | Err (UndeclaredName _) => True | _ => False end.
Lemma tame_bind {A B} (m : conv A) (k : A -> conv B) : tame m -> (forall x, tame (k x)) -> tame (bind m k).
Proof. intros Hm Hk ctx. unfold bind. specialize (Hm ctx). destruct (m ctx) as [[x | e | |] c]; cbn [fst] in *; auto. apply Hk. Qed.
Lemma tame_ret {A} (x : A) : tame (ret x).
Proof. intros ctx. exact Logic.I. Qed.
Lemma tame_panic {A} : tame (@panic A).
Proof. intros ctx. exact Logic.I. Qed.
Lemma tame_variables {A} ns (m : conv A) : tame m -> tame (with_variables ns m).
Proof.
  intros Hm ctx. unfold with_variables. specialize (Hm (rev (map n_content ns) ++ ctx)). destruct (m (rev (map n_content ns) ++ ctx)) as [r c]. destruct (Nat.ltb (length c) (length ctx)); [exact Logic.I | exact Hm].
Qed.
Ltac tame := first [apply tame_ret | apply tame_panic].
Lemma tame_all :
  (forall L t n, reads L t n -> forall fuel, tree_size t <= fuel -> tame (auto_level L (auto_term fuel) t)) /\
  (forall t ns, reads_terms t ns -> forall fuel k, tree_size t <= fuel -> tree_size t <= k -> tame (collect (auto_term fuel) (drain opt13_next k t))) /\
  (forall L t p ps, reads_rest L t p ps -> forall fuel k, tree_size t <= fuel -> tree_size t <= k -> tame (collect (auto_level L (auto_term fuel)) (drain separated_next k t))).
Proof.
  apply reads_ind3.
  - intros sp fuel Hf. destruct fuel as [| fuel]; [cbn in Hf; lia |]. tame.
  - intros c v sp _ fuel Hf. destruct fuel as [| fuel]; [cbn in Hf; lia |]. cbn [auto_level auto_term]. destruct (chars_of _); tame.
  - intros o e n sp _ _ IH fuel Hf. destruct fuel as [| fuel]; [cbn in Hf; lia |]. cbn [auto_level auto_term]. apply (IH fuel). cbn in Hf. lia.
  - intros o t n sp _ _ IH fuel Hf. destruct fuel as [| fuel]; [cbn in Hf; lia |]. cbn [auto_level auto_term]. apply tame_bind; [apply IH; cbn in Hf; lia | intros; tame].
  - intros x i _ fuel Hf. destruct fuel as [| fuel]; [cbn in Hf; lia |]. cbn [auto_level auto_term]. intros ctx. unfold auto_variable. destruct (lookup ctx _); exact Logic.I.
  - intros t n rest ns _ IH1 _ IH2 fuel Hf. cbn [auto_level auto_call]. apply tame_bind; [apply IH1; cbn in Hf; lia |]. intros x. apply tame_bind; [apply IH2; cbn in Hf |- *; lia |]. intros []; tame.
  - intros t n rest p ps _ IH1 _ IH2 fuel Hf. cbn [auto_level auto_cat]. apply tame_bind; [apply IH1; cbn in Hf; lia |]. intros x. apply tame_bind; [apply IH2; cbn in Hf |- *; lia |]. intros []; tame.
  - intros t n _ IH fuel Hf. cbn [auto_level auto_labelled]. apply tame_bind; [apply IH; cbn in Hf; lia | intros; tame].
  - intros t n o1 x o2 sp i _ IH _ _ _ fuel Hf. cbn [auto_level auto_labelled]. apply tame_bind; [apply IH; cbn in Hf; lia | intros; tame].
  - intros t n rest p ps _ IH1 _ IH2 fuel Hf. cbn [auto_level auto_alt]. apply tame_bind; [apply IH1; cbn in Hf; lia |]. intros x. apply tame_bind; [apply IH2; cbn in Hf |- *; lia |]. intros []; tame.
  - intros t n _ IH fuel Hf. cbn [auto_level auto_expr]. apply IH. cbn in Hf. lia.
  - intros o1 ns o2 t n l r arg args _ Hn _ _ IH fuel Hf. cbn [auto_level auto_expr auto_lambda]. apply tame_bind; [apply tame_variables, IH; cbn in Hf; lia | intros; tame].
  - intros fuel k _ _. destruct k; tame.
  - intros w _ fuel k _ _. destruct k; tame.
  - intros w t n rest ns _ _ IH1 _ IH2 fuel k Hf Hk. destruct k as [| k]; [cbn in Hk; lia |]. cbn [drain opt13_next collect]. apply tame_bind; [apply IH1; cbn in Hf; lia |]. intros x.
    apply tame_bind; [apply IH2; cbn in Hf, Hk |- *; lia |]. intros; tame.
  - intros L fuel k _ _. destruct k; tame.
  - intros L o t n rest p ps sp _ _ IH1 _ IH2 fuel k Hf Hk. destruct k as [| k]; [cbn in Hk; lia |]. cbn [drain separated_next collect]. apply tame_bind; [apply IH1; cbn in Hf; lia |]. intros x.
    apply tame_bind; [apply IH2; cbn in Hf, Hk |- *; lia |]. intros; tame.
Qed.
Lemma tame_stmt t st : reads_stmt t st -> forall fuel, tree_size t <= fuel -> tame (auto_stmt fuel t).
Proof.
  intros H. induction H as [k s e n o semi _ He _ | k s ns nm args o1 eq e n o2 semi t next _ Hn _ He _ _ IH]; intros fuel Hf; (destruct fuel as [| fuel]; [cbn in Hf; lia |]); cbn [auto_stmt].
  - apply (proj1 tame_all _ _ _ He fuel). cbn in Hf. lia.
  - assert (He' := proj1 tame_all _ _ _ He fuel ltac:(cbn in Hf; lia)). cbn [auto_level] in He'. destruct (items opt3_next (into_iter ns)) as [| x xs]; [tame |].
    apply tame_bind; [destruct xs; [exact He' |]; apply tame_bind; [apply tame_variables, He' | intros; tame] |]. intros u. apply tame_bind; [intros ctx; exact Logic.I |]. intros _. apply tame_bind; [apply IH; cbn in Hf; lia | intros; tame].
Qed.
Lemma tame_ast t st : reads_ast t st -> match auto_convert t with Ok _ | Panic | Err (UndeclaredName _) => True | _ => False end.
Proof.
  intros H. destruct (skip_reads _ _ H) as (t' & Ht & E & Hl). unfold auto_convert, auto_ast. rewrite E. apply (tame_stmt t' st Ht _ Hl []).
Qed.

(** ** [PartialEq] *)
Lemma same_name_eqb a b : same_name a b -> name_eqb a b = true.
Proof. intros [i k _]. unfold name_eqb. cbn [n_content n_kind content_eqb]. rewrite rstr_eqb_refl. now destruct k. Qed.
Lemma same_names_eqb ns ms : Forall2 same_name ns ms ->
  (fix go l m := match l, m with [], [] => true | a :: l', b :: m' => name_eqb a b && go l' m' | _, _ => false end) ns ms = true.
Proof. induction 1 as [| a b ns ms H _ IH]; [reflexivity |]. rewrite (same_name_eqb _ _ H). exact IH. Qed.
Lemma same_expr_eqb x : forall y, same_expr x y -> nexpr_eqb x y = true.
Proof.
  induction x as [a | a s | a f r IHf IHr | a f r IHf IHr | a i IHi | a i | a o l IHo IHl | a n i IHi | a n x y IHx IHy] using nexpr_ind'; intros z Hs; inversion Hs; subst; cbn [nexpr_eqb].
  - reflexivity.
  - apply rstr_eqb_refl.
  - rewrite IHf by assumption. cbn [andb]. match goal with K : Forall2 _ r ?m |- _ => clear -IHr K; revert IHr; induction K as [| [u p] [v q] r m H _ IH]; intros F; [reflexivity |] end.
    apply Forall_cons_iff in F as [F1 F2]. cbn [snd] in *. rewrite (F1 q H). exact (IH F2).
  - rewrite IHf by assumption. cbn [andb]. match goal with K : Forall2 _ r ?m |- _ => clear -IHr K; revert IHr; induction K as [| [u p] [v q] r m H _ IH]; intros F; [reflexivity |] end.
    apply Forall_cons_iff in F as [F1 F2]. cbn [snd] in *. rewrite (F1 q H). exact (IH F2).
  - now apply IHi.
  - apply Nat.eqb_refl.
  - rewrite IHo by assumption. cbn [andb]. match goal with K : Forall2 _ l ?m |- _ => clear -IHl K; revert IHl; induction K as [| p q r m H _ IH]; intros F; [reflexivity |] end.
    apply Forall_cons_iff in F as [F1 F2]. rewrite (F1 q H). exact (IH F2).
  - rewrite IHi by assumption. rewrite same_names_eqb by assumption. reflexivity.
  - rewrite IHx, IHy, same_name_eqb by assumption. reflexivity.
Qed.
Lemma eqb_set_ann x y b : nexpr_eqb x (set_ann b y) = nexpr_eqb x y.
Proof. now destruct x, y. Qed.
Lemma same_program_eqb x y : same_program x y -> nexpr_eqb x y = true.
Proof.
  induction 1 as [e x sp H | a b n m x y e e' _ Hn H _ IH].
  - rewrite eqb_set_ann. now apply same_expr_eqb.
  - cbn [nexpr_eqb]. now rewrite IH, (same_name_eqb _ _ Hn), (same_expr_eqb _ _ H).
Qed.
