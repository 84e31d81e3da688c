(** * GenTrees: values of generated types, by the shape of the types. *)
From Coq Require Import String.
From Verif Require Export SpecTable.
From Coq Require Import List Lia.
Open Scope list_scope.

Section Trees.
  Variable tab : table.
  Lemma derives_inv id t : derives tab id t ->
    match def_of tab id with
    | Some DEps => t = NEps
    | Some (DLit s _) => t = NLit s
    | Some (DCat _ _ ids) => exists ts, t = NCat ts /\ derives_seq tab ids ts
    | Some (DAlt _ ids _ _ _ _) => exists k j t', t = NAlt k t' /\ nth_error ids k = Some j /\ derives tab j t'
    | Some (DFix (Some j)) => derives tab j t
    | Some (DBox f) => exists t', t = NBox t' /\ derives tab f t'
    | _ => False
    end.
  Proof. intros H. destruct H as [id H | id s c H | id n p ids ts H Hs | id p ids f n a c k j t H Hk Ht | id j t H Ht | id f t H Ht]; rewrite H; eauto 8. Qed.
  Lemma derives_seq_nil ts : derives_seq tab [] ts -> ts = [].
  Proof. intros H. inversion H. reflexivity. Qed.
  Lemma derives_seq_cons id ids ts : derives_seq tab (id :: ids) ts -> exists t ts', ts = t :: ts' /\ derives tab id t /\ derives_seq tab ids ts'.
  Proof. intros H. inversion H; subst. eauto. Qed.
  Lemma eps_inv id t : def_of tab id = Some DEps -> derives tab id t -> t = NEps.
  Proof. intros E H. apply derives_inv in H. now rewrite E in H. Qed.
  Lemma lit_inv id s c t : def_of tab id = Some (DLit s c) -> derives tab id t -> t = NLit s.
  Proof. intros E H. apply derives_inv in H. now rewrite E in H. Qed.
  Lemma fix_inv id j t : def_of tab id = Some (DFix (Some j)) -> derives tab id t -> derives tab j t.
  Proof. intros E H. apply derives_inv in H. now rewrite E in H. Qed.
  Lemma box_inv id f t : def_of tab id = Some (DBox f) -> derives tab id t -> exists t', t = NBox t' /\ derives tab f t'.
  Proof. intros E H. apply derives_inv in H. now rewrite E in H. Qed.
  Lemma cat2_inv id n p a b t : def_of tab id = Some (DCat n p [a; b]) -> derives tab id t -> exists x y, t = NCat [x; y] /\ derives tab a x /\ derives tab b y.
  Proof.
    intros E H. apply derives_inv in H. rewrite E in H. destruct H as (ts & -> & H). apply derives_seq_cons in H as (x & ts1 & -> & Hx & H).
    apply derives_seq_cons in H as (y & ts2 & -> & Hy & H). apply derives_seq_nil in H. subst. eauto.
  Qed.
  Lemma cat3_inv id n p a b c t : def_of tab id = Some (DCat n p [a; b; c]) -> derives tab id t ->
    exists x y z, t = NCat [x; y; z] /\ derives tab a x /\ derives tab b y /\ derives tab c z.
  Proof.
    intros E H. apply derives_inv in H. rewrite E in H. destruct H as (ts & -> & H). apply derives_seq_cons in H as (x & ts1 & -> & Hx & H).
    apply derives_seq_cons in H as (y & ts2 & -> & Hy & H). apply derives_seq_cons in H as (z & ts3 & -> & Hz & H). apply derives_seq_nil in H. subst. eauto 8.
  Qed.
  Lemma cat4_inv id n p a b c d t : def_of tab id = Some (DCat n p [a; b; c; d]) -> derives tab id t ->
    exists x y z u, t = NCat [x; y; z; u] /\ derives tab a x /\ derives tab b y /\ derives tab c z /\ derives tab d u.
  Proof.
    intros E H. apply derives_inv in H. rewrite E in H. destruct H as (ts & -> & H). apply derives_seq_cons in H as (x & ts1 & -> & Hx & H).
    apply derives_seq_cons in H as (y & ts2 & -> & Hy & H). apply derives_seq_cons in H as (z & ts3 & -> & Hz & H).
    apply derives_seq_cons in H as (u & ts4 & -> & Hu & H). apply derives_seq_nil in H. subst. eauto 12.
  Qed.
  Lemma alt_inv id p ids f n a c t : def_of tab id = Some (DAlt p ids f n a c) -> derives tab id t ->
    exists k j t', t = NAlt k t' /\ nth_error ids k = Some j /\ derives tab j t'.
  Proof. intros E H. apply derives_inv in H. now rewrite E in H. Qed.
  Lemma alt2_inv id p i j f n a c t : def_of tab id = Some (DAlt p [i; j] f n a c) -> derives tab id t ->
    (exists t', t = NAlt 0 t' /\ derives tab i t') \/ (exists t', t = NAlt 1 t' /\ derives tab j t').
  Proof.
    intros E H. apply (alt_inv _ _ _ _ _ _ _ _ E) in H as (k & x & t' & -> & Hk & H). destruct k as [| [| k]]; cbn in Hk.
    - injection Hk as <-. eauto.
    - injection Hk as <-. eauto.
    - now destruct k.
  Qed.
  Lemma alt3_inv id p i j l f n a c t : def_of tab id = Some (DAlt p [i; j; l] f n a c) -> derives tab id t ->
    (exists t', t = NAlt 0 t' /\ derives tab i t') \/ (exists t', t = NAlt 1 t' /\ derives tab j t') \/ (exists t', t = NAlt 2 t' /\ derives tab l t').
  Proof.
    intros E H. apply (alt_inv _ _ _ _ _ _ _ _ E) in H as (k & x & t' & -> & Hk & H). destruct k as [| [| [| k]]]; cbn in Hk.
    - injection Hk as <-. eauto.
    - injection Hk as <-. eauto.
    - injection Hk as <-. eauto.
    - now destruct k.
  Qed.

  (** [opt some = _ | some] *)
  Lemma opt_iff o p e v f n a c t : def_of tab o = Some (DAlt p [e; v] f n a c) -> def_of tab e = Some DEps ->
    (derives tab o t <-> t = NAlt 0 NEps \/ exists t', t = NAlt 1 t' /\ derives tab v t').
  Proof.
    intros Eo Ee. split.
    - intros H. apply (alt2_inv _ _ _ _ _ _ _ _ _ Eo) in H as [(t' & -> & H) | H]; [left | right; exact H]. now rewrite (eps_inv _ _ Ee H).
    - intros [-> | (t' & -> & H)]; [now apply (derives_alt tab o p [e; v] f n a c 0 e); [| | apply derives_eps] | now apply (derives_alt tab o p [e; v] f n a c 1 v)].
  Qed.

  (** [plus iter = !(/plus/ iter . opt plus)] *)
  Fixpoint plus_tree (x : tree) (l : list tree) : tree :=
    NCat [x; match l with [] => NAlt 0 NEps | y :: l' => NAlt 1 (NBox (plus_tree y l')) end].
  Definition plus_ids (a b x o e v : nat) : Prop :=
    def_of tab a = Some (DFix (Some b)) /\ (exists n p, def_of tab b = Some (DCat n p [x; o])) /\
    (exists p f n q c, def_of tab o = Some (DAlt p [e; v] f n q c)) /\ def_of tab e = Some DEps /\ def_of tab v = Some (DBox a).
  Lemma plus_iff a b x o e v t : plus_ids a b x o e v ->
    (derives tab a t <-> exists y l, t = plus_tree y l /\ Forall (derives tab x) (y :: l)).
  Proof.
    intros (Ea & (n & p & Eb) & (p' & f & n' & q & c & Eo) & Ee & Ev). split.
    - remember (tree_size t) as k eqn:Ek. assert (Hk : tree_size t <= k) by lia. clear Ek. revert t Hk.
      induction k as [| k IH]; intros t Hk H; [destruct t; cbn in Hk; lia |].
      apply (fix_inv _ _ _ Ea), (cat2_inv _ _ _ _ _ _ Eb) in H as (y & z & -> & Hy & Hz).
      apply (opt_iff _ _ _ _ _ _ _ _ _ Eo Ee) in Hz as [-> | (t' & -> & Hz)]; [exists y, []; split; [reflexivity | auto] |].
      apply (box_inv _ _ _ Ev) in Hz as (t2 & -> & Hz). cbn in Hk. apply IH in Hz as (y2 & l & -> & Hl); [| lia].
      exists y, (y2 :: l). auto.
    - intros (y & l & -> & Hl). revert y Hl. induction l as [| z l IH]; intros y Hl; apply Forall_cons_iff in Hl as [Hy Hl].
      + apply (derives_fix tab a b); [exact Ea |]. apply (derives_cat tab b n p [x; o]); [exact Eb |]. constructor; [exact Hy |]. constructor; [| constructor].
        apply (opt_iff _ _ _ _ _ _ _ _ _ Eo Ee). auto.
      + cbn [plus_tree]. apply (derives_fix tab a b); [exact Ea |]. apply (derives_cat tab b n p [x; o]); [exact Eb |]. constructor; [exact Hy |]. constructor; [| constructor].
        apply (opt_iff _ _ _ _ _ _ _ _ _ Eo Ee). right. eexists. split; [reflexivity |]. apply (derives_box tab v a); [exact Ev |]. now apply IH.
  Qed.
  Lemma plus_yield x l : yield (plus_tree x l) = flat_map yield (x :: l).
  Proof.
    revert x. induction l as [| y l IH]; intros x; cbn [plus_tree yield flat_map]; rewrite ?app_nil_r; [reflexivity |]. now rewrite IH.
  Qed.

  (** [list inner p = !(/list/ inner . opt (p . ws . list))] *)
  Fixpoint list_tree (x : tree) (l : list (tree * tree * tree)) : tree :=
    NCat [x; match l with [] => NAlt 0 NEps | (p, w, y) :: l' => NAlt 1 (NCat [p; w; NBox (list_tree y l')]) end].
  Definition list_ids (a b x o e v p w r : nat) : Prop :=
    def_of tab a = Some (DFix (Some b)) /\ (exists n q, def_of tab b = Some (DCat n q [x; o])) /\
    (exists q f n i c, def_of tab o = Some (DAlt q [e; v] f n i c)) /\ def_of tab e = Some DEps /\
    (exists n q, def_of tab v = Some (DCat n q [p; w; r])) /\ def_of tab r = Some (DBox a).
  Definition item_ok p w x (i : tree * tree * tree) : Prop := derives tab p (fst (fst i)) /\ derives tab w (snd (fst i)) /\ derives tab x (snd i).
  Lemma list_iff a b x o e v p w r t : list_ids a b x o e v p w r ->
    (derives tab a t <-> exists y l, t = list_tree y l /\ derives tab x y /\ Forall (item_ok p w x) l).
  Proof.
    intros (Ea & (n & q & Eb) & (q' & f & n' & i & c & Eo) & Ee & (n2 & q2 & Ev) & Er). split.
    - remember (tree_size t) as k eqn:Ek. assert (Hk : tree_size t <= k) by lia. clear Ek. revert t Hk.
      induction k as [| k IH]; intros t Hk H; [destruct t; cbn in Hk; lia |].
      apply (fix_inv _ _ _ Ea), (cat2_inv _ _ _ _ _ _ Eb) in H as (y & z & -> & Hy & Hz).
      apply (opt_iff _ _ _ _ _ _ _ _ _ Eo Ee) in Hz as [-> | (t' & -> & Hz)]; [exists y, []; auto |].
      apply (cat3_inv _ _ _ _ _ _ _ Ev) in Hz as (z1 & z2 & z3 & -> & H1 & H2 & H3). apply (box_inv _ _ _ Er) in H3 as (t2 & -> & H3). cbn in Hk.
      apply IH in H3 as (y2 & l & -> & Hy2 & Hl); [| lia]. exists y, ((z1, z2, y2) :: l). split; [reflexivity |]. split; [exact Hy |].
      constructor; [| exact Hl]. repeat split; assumption.
    - intros (y & l & -> & Hy & Hl). revert y Hy Hl. induction l as [| [[z1 z2] z3] l IH]; intros y Hy Hl.
      + apply (derives_fix tab a b); [exact Ea |]. apply (derives_cat tab b n q [x; o]); [exact Eb |]. constructor; [exact Hy |]. constructor; [| constructor].
        apply (opt_iff _ _ _ _ _ _ _ _ _ Eo Ee). auto.
      + apply Forall_cons_iff in Hl as [(H1 & H2 & H3) Hl]. cbn [fst snd] in *.
        cbn [list_tree]. apply (derives_fix tab a b); [exact Ea |]. apply (derives_cat tab b n q [x; o]); [exact Eb |]. constructor; [exact Hy |]. constructor; [| constructor].
        apply (opt_iff _ _ _ _ _ _ _ _ _ Eo Ee). right. eexists. split; [reflexivity |]. apply (derives_cat tab v n2 q2 [p; w; r]); [exact Ev |].
        constructor; [exact H1 |]. constructor; [exact H2 |]. constructor; [| constructor]. apply (derives_box tab r a); [exact Er |]. now apply IH.
  Qed.
  Definition item_yield (i : tree * tree * tree) : rstr := yield (fst (fst i)) ++ yield (snd (fst i)) ++ yield (snd i).
  Lemma list_yield x l : yield (list_tree x l) = yield x ++ flat_map item_yield l.
  Proof.
    revert x. induction l as [| [[p w] y] l IH]; intros x; cbn [list_tree yield flat_map]; rewrite ?app_nil_r; [reflexivity |].
    rewrite IH. unfold item_yield. cbn [fst snd]. now rewrite <- !app_assoc.
  Qed.
End Trees.

(** ** Shapes of types *)
Section Shapes.
  Variable tab : table.
  Lemma cat_inv id n p ids t : def_of tab id = Some (DCat n p ids) -> derives tab id t -> exists ts, t = NCat ts /\ derives_seq tab ids ts.
  Proof. intros E H. apply derives_inv in H. now rewrite E in H. Qed.
  (** [star iter = !(/rec/ opt (iter . rec))] *)
  Fixpoint star_tree (l : list tree) : tree := match l with [] => NAlt 0 NEps | y :: l' => NAlt 1 (NCat [y; NBox (star_tree l')]) end.
  Definition star_ids (a b e v x r : nat) : Prop :=
    def_of tab a = Some (DFix (Some b)) /\ (exists p f n q c, def_of tab b = Some (DAlt p [e; v] f n q c)) /\ def_of tab e = Some DEps /\
    (exists n p, def_of tab v = Some (DCat n p [x; r])) /\ def_of tab r = Some (DBox a).
  Lemma star_iff a b e v x r t : star_ids a b e v x r -> (derives tab a t <-> exists l, t = star_tree l /\ Forall (derives tab x) l).
  Proof.
    intros (Ea & (p & f & n & q & c & Eb) & Ee & (n' & p' & Ev) & Er). split.
    - remember (tree_size t) as k eqn:Ek. assert (Hk : tree_size t <= k) by lia. clear Ek. revert t Hk.
      induction k as [| k IH]; intros t Hk H; [destruct t; cbn in Hk; lia |].
      apply (fix_inv _ _ _ _ Ea), (opt_iff _ _ _ _ _ _ _ _ _ _ Eb Ee) in H as [-> | (t' & -> & H)]; [exists []; auto |].
      apply (cat2_inv _ _ _ _ _ _ _ Ev) in H as (y & z & -> & Hy & Hz). apply (box_inv _ _ _ _ Er) in Hz as (t2 & -> & Hz). cbn in Hk.
      apply IH in Hz as (l & -> & Hl); [| lia]. exists (y :: l). auto.
    - intros (l & -> & Hl). induction Hl as [| y l Hy _ IH]; apply (derives_fix tab a b); try exact Ea; apply (opt_iff _ _ _ _ _ _ _ _ _ _ Eb Ee); [auto |].
      right. eexists. split; [reflexivity |]. apply (derives_cat tab v n' p' [x; r]); [exact Ev |]. constructor; [exact Hy |]. constructor; [| constructor].
      now apply (derives_box tab r a).
  Qed.
  Lemma star_yield l : yield (star_tree l) = flat_map yield l.
  Proof. induction l as [| y l IH]; [reflexivity |]. cbn [star_tree yield flat_map]. now rewrite app_nil_r, IH. Qed.
  (** A choice between characters. *)
  Fixpoint lit_chars (ids : list nat) : option (list char) :=
    match ids with
    | [] => Some []
    | j :: ids' =>
      match def_of tab j, lit_chars ids' with
      | Some (DLit [c] (Some c')), Some cs => if N.eqb c c' then Some (c :: cs) else None
      | _, _ => None
      end
    end.
  Lemma lit_chars_nth ids : forall cs, lit_chars ids = Some cs -> forall k,
    match nth_error ids k with Some j => exists c, nth_error cs k = Some c /\ def_of tab j = Some (DLit [c] (Some c)) | None => nth_error cs k = None end.
  Proof.
    induction ids as [| j ids IH]; intros cs E k; cbn [lit_chars] in E.
    - injection E as <-. now destruct k.
    - destruct (def_of tab j) as [[| [| c []] [c' |] | | | |] |] eqn:Ej; try discriminate. destruct (lit_chars ids) as [cs' |]; [| discriminate].
      destruct (N.eqb_spec c c') as [<- | _]; [| discriminate]. injection E as <-. destruct k as [| k]; [cbn; eauto |]. cbn [nth_error]. now apply IH.
  Qed.
  Definition class (id : nat) (cs : list char) : Prop := exists p ids f n a, def_of tab id = Some (DAlt p ids f n a true) /\ lit_chars ids = Some cs.
  Lemma class_iff id cs t : class id cs -> (derives tab id t <-> exists k c, t = NAlt k (NLit [c]) /\ nth_error cs k = Some c).
  Proof.
    intros (p & ids & f & n & a & E & Ec). split.
    - intros H. apply (alt_inv _ _ _ _ _ _ _ _ _ E) in H as (k & j & t' & -> & Hk & H). pose proof (lit_chars_nth ids cs Ec k) as L. rewrite Hk in L.
      destruct L as (c & Hc & Hj). apply (lit_inv _ _ _ _ _ Hj) in H as ->. eauto.
    - intros (k & c & -> & Hc). pose proof (lit_chars_nth ids cs Ec k) as L. destruct (nth_error ids k) as [j |] eqn:Hk; [| congruence].
      destruct L as (c' & Hc' & Hj). rewrite Hc in Hc'. injection Hc' as <-. eapply derives_alt; [exact E | exact Hk |]. eapply derives_lit; exact Hj.
  Qed.
  Lemma class_char id cs k c : class id cs -> nth_error cs k = Some c -> to_char tab id (NAlt k (NLit [c])) = Some c.
  Proof.
    intros (p & ids & f & n & a & E & Ec) Hc. pose proof (lit_chars_nth ids cs Ec k) as L. cbn [to_char]. rewrite E.
    destruct (nth_error ids k) as [j |]; [| congruence]. destruct L as (c' & Hc' & Hj). rewrite Hj. congruence.
  Qed.
  Lemma class_sound id cs t : class id cs -> derives tab id t -> exists c, yield t = [c] /\ In c cs /\ to_char tab id t = Some c.
  Proof.
    intros Hi H. apply (class_iff _ _ _ Hi) in H as (k & c & -> & Hk). exists c. split; [reflexivity |]. split; [now apply nth_error_In in Hk | now apply (class_char _ cs)].
  Qed.
  Lemma class_complete id cs c : class id cs -> In c cs -> exists t, derives tab id t /\ yield t = [c] /\ to_char tab id t = Some c.
  Proof.
    intros Hi H. apply In_nth_error in H as [k Hk]. exists (NAlt k (NLit [c])). split; [apply (class_iff _ _ _ Hi); eauto |]. split; [reflexivity | now apply (class_char _ cs)].
  Qed.
  (** Repetition of a class. *)
  Lemma star_sound a b e v x r (P : char -> Prop) t : star_ids a b e v x r -> (forall y, derives tab x y -> exists c, yield y = [c] /\ P c) ->
    derives tab a t -> Forall P (yield t).
  Proof.
    intros Hi Hx H. apply (star_iff _ _ _ _ _ _ _ Hi) in H as (l & -> & H). rewrite star_yield. induction H as [| y l Hy _ IH]; [constructor |].
    cbn [flat_map]. apply Hx in Hy as (c & -> & Hc). now constructor.
  Qed.
  Lemma list_of_chars x (P : char -> Prop) w : (forall c, P c -> exists t, derives tab x t /\ yield t = [c]) -> Forall P w -> exists l, Forall (derives tab x) l /\ flat_map yield l = w.
  Proof.
    intros Hc H. induction H as [| c w Hp _ (l & Hl & E)]; [exists []; auto |]. apply Hc in Hp as (t & Ht & Ey). exists (t :: l).
    split; [now constructor |]. cbn [flat_map]. now rewrite Ey, E.
  Qed.
  Lemma star_complete a b e v x r (P : char -> Prop) w : star_ids a b e v x r -> (forall c, P c -> exists t, derives tab x t /\ yield t = [c]) ->
    Forall P w -> exists t, derives tab a t /\ yield t = w.
  Proof.
    intros Hi Hc H. destruct (list_of_chars x P w Hc H) as (l & Hl & <-). exists (star_tree l). split; [apply (star_iff _ _ _ _ _ _ _ Hi); eauto | apply star_yield].
  Qed.
  Lemma plus_sound a b x o e v (P : char -> Prop) t : plus_ids tab a b x o e v -> (forall y, derives tab x y -> exists c, yield y = [c] /\ P c) ->
    derives tab a t -> yield t <> [] /\ Forall P (yield t).
  Proof.
    intros Hi Hx H. apply (plus_iff tab _ _ _ _ _ _ _ Hi) in H as (y & l & -> & H). rewrite plus_yield.
    assert (E : Forall P (flat_map yield (y :: l))).
    { revert H. generalize (y :: l) as m. induction m as [| z m IH]; intros H; [constructor |]. apply Forall_cons_iff in H as [Hz H]. cbn [flat_map].
      apply Hx in Hz as (c & -> & Hc). constructor; [exact Hc | now apply IH]. }
    split; [| exact E]. apply Forall_cons_iff in H as [Hy _]. apply Hx in Hy as (c & Ec & _). cbn [flat_map]. rewrite Ec. discriminate.
  Qed.
  Lemma plus_complete a b x o e v (P : char -> Prop) w : plus_ids tab a b x o e v -> (forall c, P c -> exists t, derives tab x t /\ yield t = [c]) ->
    w <> [] -> Forall P w -> exists t, derives tab a t /\ yield t = w.
  Proof.
    intros Hi Hc Hw H. destruct (list_of_chars x P w Hc H) as ([| y l] & Hl & E); [now elim Hw |].
    exists (plus_tree y l). split; [apply (plus_iff tab _ _ _ _ _ _ _ Hi); eauto | now rewrite plus_yield].
  Qed.
End Shapes.
