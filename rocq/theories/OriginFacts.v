(** * OriginFacts: positions and names of compiled expressions come from the
    program. *)
From Coq Require Import String.
From Verif Require Export SpecOrigin ReduceMore DefectFacts.
From Verif Require Export ConvertFacts.
From Coq Require Import List Lia.
Open Scope list_scope.

Section Marks.
  Variables A B C : span -> Prop.
  Variable N : name -> Prop.
  Definition name_ok (o : option name) : Prop := match o with Some n => N n | None => True end.
  Definition ann_ok (a : ann) : Prop := A (a_span a) /\ name_ok (a_name a).

  (** Positions of expressions are in [A], of the separators of concatenations
      in [B], of alternatives in [C], names in [N]; variables have a name and
      concatenations and alternations two parts. *)
  Inductive marked : nexpr -> Prop :=
  | m_eps a : ann_ok a -> marked (EEps a)
  | m_lit a s : ann_ok a -> marked (ELit a s)
  | m_cat a f r : ann_ok a -> marked f -> Forall (fun x => B (fst x) /\ marked (snd x)) r -> r <> [] -> marked (ECat a f r)
  | m_alt a f r : ann_ok a -> marked f -> Forall (fun x => C (fst x) /\ marked (snd x)) r -> r <> [] -> marked (EAlt a f r)
  | m_fix a i : ann_ok a -> marked i -> marked (EFix a i)
  | m_var a i : ann_ok a -> a_name a <> None -> marked (EVar a i)
  | m_call a o l : ann_ok a -> marked o -> Forall marked l -> marked (ECall a o l)
  | m_lam a ns i : ann_ok a -> Forall N ns -> marked i -> marked (ELam a ns i)
  | m_let a n x y : ann_ok a -> N n -> marked x -> marked y -> marked (ELet a n x y).

  Lemma name_ok_merge o o' : name_ok o -> name_ok o' -> name_ok (merge o o').
  Proof. destruct o as [[? []] |], o' as [[? []] |]; cbn; auto. Qed.
  Lemma merge_some o o' : o <> None \/ o' <> None -> merge o o' <> None.
  Proof. destruct o as [[? []] |], o' as [[? []] |]; cbn; intuition discriminate. Qed.
  Lemma marked_ann e : marked e -> ann_ok (e_ann e).
  Proof. now destruct 1. Qed.
  Lemma marked_name e : marked e -> name_ok (e_name e).
  Proof. intros H. apply marked_ann in H. exact (proj2 H). Qed.
  Lemma marked_set_ann a e : ann_ok a -> (e_name e <> None -> a_name a <> None) -> marked e -> marked (set_ann a e).
  Proof. intros Ha Hn H. destruct H; cbn [set_ann]; constructor; auto. Qed.
  Lemma marked_set_name o e : name_ok o -> (e_name e <> None -> o <> None) -> marked e -> marked (set_name o e).
  Proof. intros Ha Hn H. destruct H; cbn [set_name set_ann]; (constructor; auto; try (split; [apply H | exact Ha])). Qed.

  Lemma map_opt_empty {X Y} (f : X -> option Y) l l' : map_opt f l = Some l' -> l <> [] -> l' <> [].
  Proof. destruct l as [| x l]; [intros _ H; now elim H |]. cbn. destruct (f x), (map_opt f l); intros E _; try discriminate E. injection E as <-. discriminate. Qed.
  Lemma marked_rename dir n e : forall d e', rename_vars dir n d e = Some e' -> marked e -> marked e'.
  Proof.
    assert (HP : forall (D : span -> Prop) d r r', Forall (fun x : span * nexpr => forall d e', rename_vars dir n d (snd x) = Some e' -> marked (snd x) -> marked e') r ->
      map_opt (fun x : span * nexpr => option_map (pair (fst x)) (rename_vars dir n d (snd x))) r = Some r' ->
      Forall (fun x => D (fst x) /\ marked (snd x)) r -> Forall (fun x => D (fst x) /\ marked (snd x)) r').
    { intros D d r r' H E. eapply map_opt_Forall; [| exact E]. eapply Forall_impl; [| exact H]. cbn.
      intros [p x] Hx [q y] Hy [Hd Hm]. cbn in *. destruct (rename_vars dir n d x) eqn:F; [| discriminate Hy]. injection Hy as <- <-. eauto. }
    induction e as [a | a s | a f r IHf Hr | a f r IHf Hr | a i IH | a i | a o l IH Hl | a ns i IH | a nm y z IHy IHz] using nexpr_ind';
      intros d e' E H; cbn [rename_vars] in E.
    - injection E as <-. exact H.
    - injection E as <-. exact H.
    - destruct (rename_vars dir n d f) eqn:F; [| discriminate E]. destruct (map_opt _ r) eqn:G; [| discriminate E]. injection E as <-.
      inversion H; subst. constructor; eauto using map_opt_empty.
    - destruct (rename_vars dir n d f) eqn:F; [| discriminate E]. destruct (map_opt _ r) eqn:G; [| discriminate E]. injection E as <-.
      inversion H; subst. constructor; eauto using map_opt_empty.
    - destruct (rename_vars dir n d i) eqn:F; [| discriminate E]. injection E as <-. inversion H; subst. constructor; eauto.
    - destruct (rename_index dir n d i) eqn:F; [| discriminate E]. injection E as <-. inversion H; subst. constructor; auto.
    - destruct (rename_vars dir n d o) eqn:F; [| discriminate E]. destruct (map_opt _ l) eqn:G; [| discriminate E]. injection E as <-.
      inversion H; subst. constructor; eauto. eapply map_opt_Forall; [| exact G | eassumption]. eapply Forall_impl; [| exact Hl]. cbn. intros x Hx y. apply Hx.
    - destruct (rename_vars dir n _ i) eqn:F; [| discriminate E]. injection E as <-. inversion H; subst. constructor; eauto.
    - destruct (rename_vars dir n d y) eqn:F; [| discriminate E]. destruct (rename_vars dir n _ z) eqn:G; [| discriminate E].
      injection E as <-. inversion H; subst. constructor; eauto.
  Qed.

  Lemma fold_list_empty {X S} (f : X -> S -> option (X * S)) l st l' st' : fold_list f l st = Some (l', st') -> l <> [] -> l' <> [].
  Proof. destruct l as [| x l]; [intros _ H; now elim H |]. cbn. destruct (f x st) as [[y st1] |]; [| discriminate]. destruct (fold_list f l st1) as [[ys st2] |]; intros E _; try discriminate E. injection E as <- <-. discriminate. Qed.
  Lemma marked_substitute e : forall k x, marked e -> marked x -> exists e', substitute e (Subst k x) = Some (e', Subst k x) /\ marked e'.
  Proof.
    assert (HW : forall i, (forall k x, marked i -> marked x -> exists e', substitute i (Subst k x) = Some (e', Subst k x) /\ marked e') ->
       forall n k x, marked i -> marked x -> exists i', with_args n (substitute i) (Subst k x) = Some (i', Subst k x) /\ marked i').
    { intros i Hi n k x Ci Cx. unfold with_args. cbn [s_expr s_index]. destruct (deepen0 n x) as (x' & E & _ & Sx). rewrite E.
      destruct (Hi (k + n) x' Ci (marked_rename _ _ _ _ _ E Cx)) as (i' & -> & Ci'). cbn [s_expr s_index]. rewrite Sx.
      replace (Nat.leb n (k + n)) with true by (symmetry; apply Nat.leb_le; lia). exists i'. split; [do 3 f_equal; lia | assumption]. }
    assert (HP : forall (D : span -> Prop) k x r r' st, marked x ->
      Forall (fun y : span * nexpr => forall k x, marked (snd y) -> marked x -> exists e', substitute (snd y) (Subst k x) = Some (e', Subst k x) /\ marked e') r ->
      fold_list (fun (x : span * nexpr) st => match substitute (snd x) st with None => None | Some (y, st') => Some ((fst x, y), st') end) r (Subst k x) = Some (r', st) ->
      Forall (fun x => D (fst x) /\ marked (snd x)) r -> Forall (fun x => D (fst x) /\ marked (snd x)) r').
    { intros D k x r r' st Cx Hr G C2. refine (fold_list_Forall _ _ _ r _ _ _ C2 G). eapply Forall_impl; [| exact Hr]. cbn. intros [p y] Hy [Cp Cy]. cbn in *.
      destruct (Hy k x Cy Cx) as (y' & -> & Cy'). exists (p, y'). auto. }
    induction e as [a | a s | a f r IHf Hr | a f r IHf Hr | a i IH | a i | a o l IH Hl | a ns i IH | a nm y z IHy IHz] using nexpr_ind';
      intros k x Ce Cx.
    - eexists; split; [reflexivity | exact Ce].
    - eexists; split; [reflexivity | exact Ce].
    - destruct (substitute_ok (ECat a f r) k x) as (e' & E & _). exists e'. split; [exact E |]. inversion Ce; subst.
      cbn [substitute] in E. destruct (IHf k x ltac:(assumption) Cx) as (f' & F & Cf). rewrite F in E.
      destruct (fold_list _ r _) as [[r' st] |] eqn:G; [| discriminate E]. injection E as <- ->. constructor; eauto using fold_list_empty.
    - destruct (substitute_ok (EAlt a f r) k x) as (e' & E & _). exists e'. split; [exact E |]. inversion Ce; subst.
      cbn [substitute] in E. destruct (IHf k x ltac:(assumption) Cx) as (f' & F & Cf). rewrite F in E.
      destruct (fold_list _ r _) as [[r' st] |] eqn:G; [| discriminate E]. injection E as <- ->. constructor; eauto using fold_list_empty.
    - inversion Ce; subst. cbn [substitute]. destruct (IH k x ltac:(assumption) Cx) as (i' & -> & Ci). eexists; split; [reflexivity |]. now constructor.
    - inversion Ce; subst. cbn [substitute s_index s_expr]. destruct (Nat.eqb i k); eexists; (split; [reflexivity |]).
      + apply marked_set_name; [apply name_ok_merge; [now apply marked_name | apply H1] | intros _; apply merge_some; now right | exact Cx].
      + now constructor.
    - destruct (substitute_ok (ECall a o l) k x) as (e' & E & _). exists e'. split; [exact E |]. inversion Ce; subst.
      cbn [substitute] in E. destruct (IH k x ltac:(assumption) Cx) as (f' & F & Cf). rewrite F in E.
      destruct (fold_list _ l _) as [[r' st] |] eqn:G; [| discriminate E]. injection E as <- ->. constructor; auto.
      refine (fold_list_Forall _ _ _ l _ _ _ H4 G). eapply Forall_impl; [| exact Hl]. cbn. intros y Hy Cy. now apply Hy.
    - inversion Ce; subst. cbn [substitute]. destruct (HW i IH (List.length ns) k x ltac:(assumption) Cx) as (i' & -> & Ci). eexists; split; [reflexivity |]. now constructor.
    - inversion Ce; subst. cbn [substitute]. destruct (IHy k x ltac:(assumption) Cx) as (y' & -> & Cy).
      destruct (HW z IHz 1 k x ltac:(assumption) Cx) as (z' & -> & Cz). eexists; split; [reflexivity |]. now constructor.
  Qed.

  Lemma marked_bind l : forall inner out, Forall (fun x => marked (snd (fst x)) /\ N (snd x)) l -> marked inner -> bind_args l inner = Some out -> marked out.
  Proof.
    induction l as [| [[i arg] nm] l IH]; intros inner out Hl Hi E; cbn [bind_args] in E.
    - now injection E as <-.
    - inversion Hl; subst. cbn in H1. destruct H1 as [H1 Hn]. destruct (rename_vars _ _ _ _) as [arg' |] eqn:F; [| discriminate E].
      apply marked_rename in F; [| apply marked_set_name; [apply name_ok_merge; [now apply marked_name | exact Hn] | intros Hz; apply merge_some; now left | exact H1]].
      destruct (marked_substitute inner 0 arg' Hi F) as (out' & G & Co). rewrite G in E. eapply IH; eauto.
  Qed.

  Lemma reduce_list_empty {X} (f : X -> res X red_error) l l' : reduce_list f l = Ok l' -> l <> [] -> l' <> [].
  Proof. destruct l as [| x l]; [intros _ H; now elim H |]. cbn. destruct (f x); try discriminate. destruct (reduce_list f l); intros E _; try discriminate E. injection E as <-. discriminate. Qed.
  Lemma merge3 o o' o'' : name_ok o -> name_ok o' -> name_ok o'' -> name_ok (merge_all [o; o'; o'']).
  Proof. intros. cbn. apply name_ok_merge; [apply name_ok_merge; auto | auto]. Qed.
  Lemma merge3_some o o' o'' : o <> None \/ o' <> None \/ o'' <> None -> merge_all [o; o'; o''] <> None.
  Proof. intros H. cbn. apply merge_some. destruct H as [H | [H | H]]; [left; apply merge_some; now left | left; apply merge_some; now right | now right]. Qed.
  Lemma marked_reduce n : forall e, marked e -> match reduce n e with Ok v => marked v | Err x => A (err_span x) | _ => True end.
  Proof.
    induction n as [| n IH]; intros e Ce; [exact Logic.I |].
    assert (HP : forall (D : span -> Prop) r, Forall (fun x : span * nexpr => D (fst x) /\ marked (snd x)) r ->
      match reduce_list (fun x : span * nexpr => res_map (pair (fst x)) (reduce n (snd x))) r with Ok r' => Forall (fun x => D (fst x) /\ marked (snd x)) r' | Err x => A (err_span x) | _ => True end).
    { induction 1 as [| [p x] r [Hd Hx] _ IHr]; cbn [reduce_list fst snd]; [constructor |]. specialize (IH x Hx). cbn [fst snd] in *.
      destruct (reduce n x); cbn [res_map]; auto. destruct (reduce_list _ r); auto. }
    destruct e as [a | a s | a f r | a f r | a i | a i | a o l | a ns i | a nm y z]; try exact Ce.
    - inversion Ce; subst. cbn [reduce]. specialize (IH f ltac:(assumption)). destruct (reduce n f); cbn [res_bind]; auto. specialize (HP B r ltac:(assumption)).
      destruct (reduce_list _ r) eqn:G; cbn [res_map]; auto. constructor; auto. eapply reduce_list_empty; eauto.
    - inversion Ce; subst. cbn [reduce]. specialize (IH f ltac:(assumption)). destruct (reduce n f); cbn [res_bind]; auto. specialize (HP C r ltac:(assumption)).
      destruct (reduce_list _ r) eqn:G; cbn [res_map]; auto. constructor; auto. eapply reduce_list_empty; eauto.
    - inversion Ce; subst. cbn [reduce]. pose proof (IH i ltac:(assumption)) as Hi. destruct (reduce n i) as [i' | | |]; cbn [res_bind]; auto.
      destruct i' as [| | | | | | | b ns j |]; try (constructor; assumption). inversion Hi; subst. specialize (IH j ltac:(assumption)). destruct (reduce n j); cbn [res_map]; auto. do 2 (constructor; auto).
    - rewrite reduce_call. inversion Ce as [| | | | | | ? ? ? Ca Co Cl | |]; subst. pose proof (IH o Co) as Ho. destruct Ca as [Ca Ca'].
      destruct (reduce n o) as [o' | | |]; cbn [res_bind]; auto. destruct o' as [| | | | | | | b ns j |]; try exact Ca.
      destruct (Nat.eqb_spec (List.length ns) (List.length l)) as [L | L]; [| exact Ca].
      destruct (bind_args _ j) as [out |] eqn:G; [| exact Logic.I]. inversion Ho as [| | | | | | | ? ? ? Cb Cn Cj |]; subst.
      apply marked_bind in G; [| | exact Cj].
      + pose proof (IH out G) as Hv. destruct (reduce n out) as [v | | |]; cbn [res_map]; auto.
        apply marked_set_ann; [| | exact Hv].
        * split; [exact Ca |]. apply merge3; [exact Ca' | apply Cb | now apply marked_name].
        * intros Hz. apply merge3_some. auto.
      + apply Forall_forall. intros x Hx. apply in_rev in Hx. split; [apply combine_args_In in Hx; now apply (proj1 (Forall_forall _ _) Cl) |].
        destruct x as [q nm]. apply in_combine_r in Hx. cbn. now apply (proj1 (Forall_forall _ _) Cn).
    - rewrite reduce_let. inversion Ce as [| | | | | | | | ? ? ? ? Ca Cn Cy Cz]; subst. destruct (marked_substitute z 0 y Cz Cy) as (out & -> & Co).
      pose proof (IH out Co) as Hv. destruct (reduce n out) as [v | | |]; cbn [res_map]; auto.
      apply marked_set_ann; [| | exact Hv].
      + split; [apply Ca |]. apply name_ok_merge; [now apply marked_name | apply Ca].
      + intros Hz. apply merge_some. now left.
  Qed.
End Marks.

(** ** Conversion *)
Definition within (l ts : list token) : Prop := forall t, occurs t l -> occurs t ts.
Lemma within_incl l l' ts : incl l l' -> within l' ts -> within l ts.
Proof.
  intros H W t Ht. apply W. destruct Ht as [l Hi | sp l0 l Hi Ho]; [apply occurs_here; auto | eapply occurs_inside; [apply H; exact Hi | exact Ho]].
Qed.
Lemma within_in l ts t : within l ts -> In t l -> occurs t ts.
Proof. intros W H. apply W. now constructor. Qed.
Lemma within_group sp l ts : within [TkGroup sp l] ts -> within l ts.
Proof. intros W t Ht. apply W. eapply occurs_inside; [now left | exact Ht]. Qed.
Lemma join_spans_place join l ts : l <> [] -> within l ts -> place join ts (join_spans join l).
Proof.
  intros Hne W. destruct (extent_join join l Hne) as [(t & -> & ->) | (t & l' & u & -> & ->)].
  - left. exists t. split; [apply (within_in _ _ _ W); now left | reflexivity].
  - assert (Ht : occurs t ts) by (apply (within_in _ _ _ W); now left).
    assert (Hu : occurs u ts) by (apply (within_in _ _ _ W); right; apply in_or_app; right; now left).
    destruct (join _ _) eqn:E; [right; eauto | left; eauto].
Qed.
Lemma pairs_in f sep ps n p : In (n, p) ps -> incl (f n) (pairs_tokens f sep ps) /\ (forall sp, p = Some sp -> In (pt sep sp) (pairs_tokens f sep ps)).
Proof.
  induction ps as [| [n' p'] ps IH]; [intros [] |]. cbn [pairs_tokens]. intros [[= -> ->] | H].
  - split; [apply incl_appl, incl_refl |]. intros sp ->. apply in_or_app. right. now left.
  - destruct (IH H) as [I1 I2]. split; [now apply incl_appr, incl_appr |]. intros sp Hs. apply in_or_app. right. apply in_or_app. right. auto.
Qed.

Section Program.
  Variable join : span -> span -> option span.
  Variable ts : list token.
  Notation mk := (marked (place join ts) (punct_at "." ts) (punct_at "|" ts) (name_in ts)).
  Notation ok_ann := (ann_ok (place join ts) (name_in ts)).

  Lemma marked_parts (D : span -> Prop) (M : nexpr -> Prop) (ps : list (node * option span)) r punct :
    Forall2 (fun _ e => M e) (map fst ps) (map snd r) -> Some punct :: map snd ps = map (fun r => Some (fst r)) r ++ [None] ->
    D punct -> Forall (fun x => match snd x with Some sp => D sp | None => True end) ps -> Forall (fun x : span * nexpr => D (fst x) /\ M (snd x)) r.
  Proof.
    intros H E Hp Hs. apply Forall_forall. intros x Hx. split.
    - assert (Hi : In (Some (fst x)) (Some punct :: map snd ps)) by (rewrite E; apply in_or_app; left; apply in_map_iff; eauto).
      destruct Hi as [[= <-] | Hi]; [exact Hp |]. apply in_map_iff in Hi as (y & Hy & Hi). rewrite Forall_forall in Hs. specialize (Hs y Hi). now rewrite Hy in Hs.
    - assert (G : forall (l : list node) m, Forall2 (fun _ e => M e) l m -> Forall M m) by (induction 1; constructor; auto). apply G in H. rewrite Forall_forall in H. apply H, in_map, Hx.
  Qed.
  Lemma ident_ok i : occurs (TkIdent i) ts -> place join ts (id_span i).
  Proof. intros H. left. exists (TkIdent i). auto. Qed.

  Lemma convert_marked n : forall L, wf L n -> within (to_tokens n) ts -> yields mk (convert join n).
  Proof.
    induction n using node_ind'; intros L Hw Wi; pose proof (join_spans_place join _ ts (wf_tokens _ _ Hw) Wi) as Hx; cbn [convert]; fold (node_span join) in *.
    - apply yields_ret. constructor. split; [exact Hx | exact Logic.I].
    - intros ctx e E. destruct (lookup ctx _); [| discriminate E]. injection E as <-. constructor; [| discriminate].
      assert (Ho : occurs (TkIdent i) ts) by (apply (within_in _ _ _ Wi); now left). split; [now apply ident_ok | exact Ho].
    - apply yields_ret. constructor. split; [exact Hx | exact Logic.I].
    - assert (Wn : wf LvTerm n) by (inversion Hw; subst; [assumption |]; match goal with h : wf LvAlt _ |- _ => inversion h end).
      eapply yields_bind; [eapply IHn; [exact Wn |]; eapply within_incl; [| exact Wi]; apply incl_tl, incl_refl |]. intros e He. apply yields_ret. constructor; [split; [exact Hx | exact Logic.I] | exact He].
    - assert (Wn : wf LvExpr n) by (inversion Hw; subst; [assumption |]; match goal with h : wf LvAlt _ |- _ => inversion h end).
      eapply IHn; [exact Wn |]. cbn [to_tokens] in Wi. now apply within_group in Wi.
    - assert (Wn : exists t ts', ts0 = t :: ts' /\ wf LvTerm t /\ Forall (wf LvTerm) ts').
      { inversion Hw; subst; [eauto 6 |]. match goal with h : wf LvAlt _ |- _ => inversion h end. }
      destruct Wn as (t & ts' & -> & Wt & Wts). inversion H as [| ? ? Ht Hts]; subst.
      assert (Wl : forall x, In x (t :: ts') -> within (to_tokens x) ts).
      { intros x Hin. eapply within_incl; [| exact Wi]. cbn [to_tokens]. intros y Hy. apply in_flat_map. eauto. }
      eapply yields_bind; [eapply Ht; [exact Wt | apply Wl; now left] |]. intros e He.
      assert (Hc : Forall (fun n => yields ((fun _ => mk) n) (convert join n)) ts').
      { apply Forall_forall. intros x Hin. rewrite Forall_forall in Hts, Wts. eapply Hts; [exact Hin | apply Wts, Hin | apply Wl; now right]. }
      eapply yields_bind; [apply (yields_args _ _ _ Hc) |].
      intros es Hes. destruct es as [| e1 es]; [now apply yields_ret |]. apply yields_ret. constructor; [split; [exact Hx | exact Logic.I] | exact He |].
      assert (G : forall (l : list node) m, Forall2 (fun _ => mk) l m -> Forall mk m) by (induction 1; constructor; auto). now apply G in Hes.
    - assert (Hb : punctuated (wf LvCall) ps).
      { inversion Hw; subst; [assumption |]. match goal with h : wf LvAlt _ |- _ => now inversion h end. }
      assert (Wl : forall x p, In (x, p) ps -> within (to_tokens x) ts /\ match p with Some sp => punct_at "." ts sp | None => True end).
      { intros x p Hin. cbn [to_tokens] in Wi. destruct (pairs_in to_tokens "." ps x p Hin) as [I1 I2]. split; [eapply within_incl; [exact I1 | exact Wi] |].
        destruct p; [| exact Logic.I]. apply (within_in _ _ _ Wi). now apply I2. }
      destruct ps as [| [t p] ps']; [inversion Hb |]. inversion H as [| ? ? Ht Hts]; subst.
      assert (Wt : wf LvCall t) by (inversion Hb; assumption).
      eapply yields_bind; [eapply Ht; [exact Wt | eapply Wl; now left] |]. intros e He. inversion Hb as [? ? | ? sp ? ? Hl]; subst.
      + eapply yields_bind; [apply yields_ret with (P := fun r => r = []); reflexivity |]. intros r ->. now apply yields_ret.
      + assert (Hne : ps' <> []) by (destruct Hl; discriminate).
        assert (Hc : Forall (fun x => yields ((fun _ => mk) (fst x)) (convert join (fst x))) ps').
        { assert (Wl' : forall x p, In (x, p) ps' -> within (to_tokens x) ts) by (intros; eapply Wl; right; eauto).
          clear - Hts Hl Wl'. induction Hl as [x Hx | x sp l Hx Hl IH]; inversion Hts as [| ? ? Hy Hys]; subst; constructor; auto; try (eapply Hy; [exact Hx | eapply Wl'; now left]).
          apply IH; auto. intros; eapply Wl'; right; eauto. }
        eapply yields_bind; [apply (yields_rest _ _ _ _ Hc Hne Hl) |]. intros es [Hes1 Hes2]. destruct es as [| e1 es].
        * destruct ps'; [congruence | inversion Hes1].
        * apply yields_ret. constructor; [split; [exact Hx | exact Logic.I] | exact He | | discriminate].
          apply (marked_parts (punct_at "." ts) mk ps' (e1 :: es) _ Hes1 Hes2); [exact (proj2 (Wl t (Some sp) (or_introl eq_refl))) |].
          apply Forall_forall. intros [x q] Hin. exact (proj2 (Wl x q (or_intror Hin))).
    - assert (Wn : wf LvCat n) by (inversion Hw; subst; [assumption |]; match goal with h : wf LvAlt _ |- _ => inversion h end).
      eapply yields_bind; [eapply IHn; [exact Wn |]; eapply within_incl; [| exact Wi]; apply incl_appl, incl_refl |]. intros e He. apply yields_ret.
      apply marked_set_ann; [split; [exact Hx |] | intros Hz; apply merge_some; now right | exact He].
      apply name_ok_merge; [| eapply marked_name; exact He]. destruct l as [[sp i] |]; [| exact Logic.I]. cbn. apply (within_in _ _ _ Wi). cbn [to_tokens]. apply in_or_app. right. right. now left.
    - assert (Hb : punctuated (wf LvLabelled) ps).
      { inversion Hw; subst; [assumption |]. match goal with h : wf LvAlt _ |- _ => now inversion h end. }
      assert (Wl : forall x p, In (x, p) ps -> within (to_tokens x) ts /\ match p with Some sp => punct_at "|" ts sp | None => True end).
      { intros x p Hin. cbn [to_tokens] in Wi. destruct (pairs_in to_tokens "|" ps x p Hin) as [I1 I2]. split; [eapply within_incl; [exact I1 | exact Wi] |].
        destruct p; [| exact Logic.I]. apply (within_in _ _ _ Wi). now apply I2. }
      destruct ps as [| [t p] ps']; [inversion Hb |]. inversion H as [| ? ? Ht Hts]; subst.
      assert (Wt : wf LvLabelled t) by (inversion Hb; assumption).
      eapply yields_bind; [eapply Ht; [exact Wt | eapply Wl; now left] |]. intros e He. inversion Hb as [? ? | ? sp ? ? Hl]; subst.
      + eapply yields_bind; [apply yields_ret with (P := fun r => r = []); reflexivity |]. intros r ->. now apply yields_ret.
      + assert (Hne : ps' <> []) by (destruct Hl; discriminate).
        assert (Hc : Forall (fun x => yields ((fun _ => mk) (fst x)) (convert join (fst x))) ps').
        { assert (Wl' : forall x p, In (x, p) ps' -> within (to_tokens x) ts) by (intros; eapply Wl; right; eauto).
          clear - Hts Hl Wl'. induction Hl as [x Hx | x sp l Hx Hl IH]; inversion Hts as [| ? ? Hy Hys]; subst; constructor; auto; try (eapply Hy; [exact Hx | eapply Wl'; now left]).
          apply IH; auto. intros; eapply Wl'; right; eauto. }
        eapply yields_bind; [apply (yields_rest _ _ _ _ Hc Hne Hl) |]. intros es [Hes1 Hes2]. destruct es as [| e1 es].
        * destruct ps'; [congruence | inversion Hes1].
        * apply yields_ret. constructor; [split; [exact Hx | exact Logic.I] | exact He | | discriminate].
          apply (marked_parts (punct_at "|" ts) mk ps' (e1 :: es) _ Hes1 Hes2); [exact (proj2 (Wl t (Some sp) (or_introl eq_refl))) |].
          apply Forall_forall. intros [x q] Hin. exact (proj2 (Wl x q (or_intror Hin))).
    - assert (Wn : wf LvAlt n) by (inversion Hw; subst; [match goal with h : wf LvAlt _ |- _ => now inversion h end | assumption]).
      eapply yields_bind; [apply yields_variables; eapply IHn; [exact Wn |]; eapply within_incl; [| exact Wi]; cbn [to_tokens]; intros y Hy; right; apply in_or_app; right; now right |]. intros e He. apply yields_ret.
      constructor; [split; [exact Hx | exact Logic.I] | | exact He]. apply Forall_forall. intros x Hin. apply in_map_iff in Hin as (i & <- & Hin). cbn. apply (within_in _ _ _ Wi). cbn [to_tokens]. right. apply in_or_app. left. apply in_map_iff. eauto.
  Qed.

  Lemma convert_stmt_marked s : wf_stmt s -> within (stmt_tokens s) ts -> yields mk (convert_stmt join s).
  Proof.
    induction 1 as [k n semi Hn | k x args eq n semi next Ha Hn Hnext IH]; intros Wi.
    - assert (Hx : place join ts (stmt_span join (SGoal k n semi))) by (apply join_spans_place; [discriminate | exact Wi]).
      cbn [convert_stmt]. eapply yields_bind; [eapply convert_marked; [exact Hn |]; eapply within_incl; [| exact Wi]; cbn [stmt_tokens]; intros y Hy; right; apply in_or_app; now left |].
      intros e He. apply yields_ret. apply marked_set_ann; [split; [exact Hx |] | intros _; apply merge_some; right; discriminate | exact He].
      apply name_ok_merge; [eapply marked_name; exact He | reflexivity].
    - assert (Hx : place join ts (stmt_span join (SLet k x args eq n semi next))) by (apply join_spans_place; [discriminate | exact Wi]).
      assert (Wn : within (to_tokens n) ts). { eapply within_incl; [| exact Wi]. cbn [stmt_tokens]. intros y Hy. right. right. apply in_or_app. right. right. apply in_or_app. now left. }
      assert (Wx : within (stmt_tokens next) ts). { eapply within_incl; [| exact Wi]. cbn [stmt_tokens]. intros y Hy. right. right. apply in_or_app. right. right. apply in_or_app. right. now right. }
      assert (Ox : occurs (TkIdent x) ts) by (apply (within_in _ _ _ Wi); cbn; tauto).
      assert (Oa : Forall (name_in ts) (map (fun j => new_variable (Spanned j)) args)).
      { apply Forall_forall. intros y Hin. apply in_map_iff in Hin as (i & <- & Hin). cbn. apply (within_in _ _ _ Wi). cbn [stmt_tokens]. right. right. apply in_or_app. left. apply in_map_iff. eauto. }
      cbn [convert_stmt]. eapply yields_bind with (P := mk).
      + destruct args as [| a args]; [eapply convert_marked; eauto |].
        eapply yields_bind; [apply yields_variables; eapply convert_marked; eauto |]. intros e He. apply yields_ret. constructor; [split; [exact Hx | exact Logic.I] | exact Oa | exact He].
      + intros b Hb. eapply yields_bind with (P := fun _ => True); [now intros ctx y _ |]. intros _ _. eapply yields_bind; [apply IH, Wx |]. intros c Hc.
        apply yields_ret. constructor; [split; [exact Hx | exact Logic.I] | exact Ox | | exact Hc]. apply marked_set_name; [exact Ox | discriminate | exact Hb].
  Qed.
End Program.

(** ** Type errors *)
Section Errors.
  Variables A B C : span -> Prop.
  Variable N : name -> Prop.
  Notation mk := (marked A B C N).
  Definition error_marked (x : type_error) : Prop :=
    match x with
    | FirstNullable _ p | FirstFlastOverlap _ p _ => B p
    | BothNullable _ p _ | FirstOverlap _ p _ => C p
    | VariableError _ _ s o => A s /\ exists n, o = Some n /\ N n
    | UnexpectedCall s _ | UnexpectedLambda s _ | UnexpectedLet s _ | ExpectedLambda s _ => A s
    end.
  Lemma infer_marked e : forall fuel nm c x, mk e -> name_ok N nm -> (e_name e <> None -> nm <> None) -> infer fuel nm c e = Err x -> error_marked x.
  Proof.
    assert (K : forall e', mk e' -> name_ok N (e_name e')) by (intros; eapply marked_name; eauto).
    induction e using nexpr_ind_fix; intros fuel nm c y M Nm Hs E; try discriminate.
    - rewrite infer_cat in E. inversion M as [| | ? ? ? M1 M2 M3 M4 | | | | | |]; subst. destruct (infer fuel (e_name e) c e) as [f'| z | |] eqn:Ef; try discriminate.
      2: { injection E as ->. eapply IHe; [exact M2 | apply K, M2 | auto | exact Ef]. }
      destruct (nullable _) eqn:Hn.
      { injection E as <-. destruct r as [| [p x] r]; [congruence |]. inversion M3; subst. cbn in *. tauto. }
      destruct (seq_go _ _ _) as [[ts t']| z | |] eqn:Es; try discriminate. injection E as ->. apply seq_go_err in Es as (l1 & p & e1 & l2 & -> & ts & t1 & Hok & Herr).
      assert (Hin : In (p, e1) (l1 ++ (p, e1) :: l2)) by (apply in_or_app; right; now left). rewrite Forall_forall in H, M3. pose proof (H _ Hin) as IH1. destruct (M3 _ Hin) as [Mp Me]. cbn [fst snd] in *.
      destruct Herr as [Herr | (q & Hq & Hd & ->)]; [eapply IH1; [exact Me | apply K, Me | auto | exact Herr] | exact Mp].
    - rewrite infer_alt in E. inversion M as [| | | ? ? ? M1 M2 M3 M4 | | | | |]; subst. destruct (infer fuel (e_name e) c e) as [f'| z | |] eqn:Ef; try discriminate.
      2: { injection E as ->. eapply IHe; [exact M2 | apply K, M2 | auto | exact Ef]. }
      destruct (alt_go _ _ _) as [[ts t']| z | |] eqn:Es; try discriminate. injection E as ->. apply alt_go_err in Es as (l1 & p & e1 & l2 & -> & ts & t1 & Hok & Herr).
      assert (Hin : In (p, e1) (l1 ++ (p, e1) :: l2)) by (apply in_or_app; right; now left). rewrite Forall_forall in H, M3. pose proof (H _ Hin) as IH1. destruct (M3 _ Hin) as [Mp Me]. cbn [fst snd] in *.
      destruct Herr as [Herr | (q & Hq & [[_ ->] | [_ ->]])]; [eapply IH1; [exact Me | apply K, Me | auto | exact Herr] | exact Mp | exact Mp].
    - rewrite infer_fix in E. inversion M as [| | | | ? ? M1 M2 | | | |]; subst. inversion M2 as [| | | | | | | ? ? ? M3 M4 M5 |]; subst. destruct (fix_loop _ _ _) as [r| z | |] eqn:Ef; try discriminate. injection E as ->.
      apply (fix_loop_err (fun _ => True)) in Ef; auto. destruct Ef as (t & _ & Ef). eapply IHe; [exact M5 | apply merge3; [apply M3 | apply K, M5 | exact Nm] | intros Hz; apply merge3_some; auto | exact Ef].
    - rewrite infer_fix in E. inversion M as [| | | | ? ? M1 M2 | | | |]; subst. destruct e; try (injection E as <-; cbn; apply M1). exfalso. eapply H; reflexivity.
    - inversion M as [| | | | | ? ? M1 M2 | | |]; subst. cbn in E. destruct (get_variable_type c i); try discriminate. injection E as <-. split; [apply M1 |]. destruct nm as [n |]; [eauto | now elim Hs].
    - injection E as <-. inversion M as [| | | | | | ? ? ? M1 | |]; subst. apply M1.
    - injection E as <-. inversion M as [| | | | | | | ? ? ? M1 |]; subst. apply M1.
    - injection E as <-. inversion M as [| | | | | | | | ? ? ? ? M1]; subst. apply M1.
  Qed.
End Errors.

(** ** Generated identifiers *)
From Verif Require Import NameFacts SpecTable.

Section Words.
  Variable cs : casing.
  Variable N : name -> Prop.
  Notation from_name := (from_name N).
  Notation type_word := (type_word cs N).
  Notation part_word := (part_word cs N).
  Definition spelled (d : list entry) : Prop := Forall (fun en => (forall s, en_name en = TnIdent s -> type_word s) /\ part_word (en_def en)) d.

  Lemma new_type_word prefix o b id ident b1 : In prefix [lit "Lit"; lit "Cat"; lit "Alt"; lit "Fix"] -> name_ok N o -> new_type_name cs prefix o b = Some (id, ident, b1) -> type_word ident.
  Proof.
    intros Hp Ho. unfold new_type_name. destruct o as [n|]; [| intros E; injection E as <- <- <-; eexists _, _; split; [reflexivity | now left]].
    destruct (camel cs _) as [c|] eqn:Ec; [|discriminate]. destruct (bump _ _) as [q m]. intros E. injection E as <- <- <-. eexists _, _. split; [reflexivity |]. right. exists n. auto.
  Qed.
  Lemma name_parts_word conv default l : Forall (name_ok N) l -> forall k m parts, name_parts conv default k m l = Some parts ->
    Forall (fun s => exists p k, s = p ++ dec k /\ (p = default \/ from_name conv p)) parts.
  Proof.
    induction 1 as [| [n|] l Hn _ IH]; intros k m parts E; cbn in E.
    - injection E as <-. constructor.
    - destruct (conv (name_text n)) as [c|] eqn:Ec; [|discriminate]. destruct (bump c m) as [q m']. destruct (name_parts conv default (S k) m' l) eqn:El; [|discriminate]. injection E as <-.
      constructor; [| eauto]. eexists _, _. split; [reflexivity |]. right. exists n. auto.
    - destruct (name_parts conv default (S k) m l) eqn:El; [|discriminate]. injection E as <-. constructor; [| eauto]. eexists _, _. split; [reflexivity |]. now left.
  Qed.
  Definition names_of (e : texpr) : Prop := Forall N (t_names e).
  Lemma names_of_name e : names_of e -> name_ok N (t_name e).
  Proof. unfold names_of. intros H. assert (K : Forall N (match t_name e with Some n => [n] | None => [] end)) by (destruct e; cbn [t_names] in H; now apply Forall_app in H as [H _]). destruct (t_name e); [now inversion K | exact Logic.I]. Qed.
  Lemma names_of_list l : Forall N (flat_map t_names l) -> Forall names_of l.
  Proof. induction l as [| x l IH]; cbn; [constructor |]. intros H. apply Forall_app in H as [H1 H2]. constructor; auto. Qed.
  Lemma names_of_rest e : names_of e -> match e with TCat _ l _ | TAlt _ l _ => Forall names_of l | TFix _ i => names_of i | _ => True end.
  Proof. unfold names_of at 1. destruct e; cbn [t_names]; auto; intros H; apply Forall_app in H as [_ H]; auto using names_of_list. Qed.
  Lemma names_of_heads l : Forall names_of l -> Forall (name_ok N) (map t_name l).
  Proof. induction 1; constructor; auto using names_of_name. Qed.

  Definition wspec (e : texpr) : Prop := forall b b' id, names_of e -> spelled (data b) -> gen cs e b = Some (b', id) -> spelled (data b').
  Lemma spelled_push d en : spelled d -> (forall s, en_name en = TnIdent s -> type_word s) -> part_word (en_def en) -> spelled (d ++ [en]).
  Proof. intros H H1 H2. apply Forall_app. split; [exact H |]. constructor; auto. Qed.
  Lemma gen_list_words l : Forall wspec l -> forall b b' ids, Forall names_of l -> spelled (data b) -> gen_list (gen cs) l b = Some (b', ids) -> spelled (data b').
  Proof.
    induction 1 as [|e l He Hl IH]; intros b b' ids Hn I E; cbn [gen_list] in E.
    - injection E as <- <-. exact I.
    - inversion Hn; subst. destruct (gen cs e b) as [[b1 id]|] eqn:E1; [|discriminate].
      destruct (gen_list (gen cs) l b1) as [[b2 ids2]|] eqn:E2; [|discriminate]. injection E as <- <-. eapply IH; [| | exact E2]; eauto.
  Qed.
  Theorem gen_words e : wspec e.
  Proof.
    induction e using texpr_ind'; intros b b' id Hn I E; pose proof (names_of_name _ Hn) as Hh; pose proof (names_of_rest _ Hn) as Hr.
    - cbn in E. unfold gen_epsilon in E. destruct (eps_id b); injection E as <- <-; [exact I|]. apply spelled_push; [exact I|discriminate|exact Logic.I].
    - cbn in E. unfold gen_literal in E. destruct (map_get rstr_eqb s (lit_map b)); [injection E as <- <-; exact I|].
      destruct (new_type_name _ _ _ _) as [[[x ident] b1]|] eqn:En; [|discriminate].
      pose proof (new_type_word (lit "Lit") _ _ _ _ _ ltac:(cbn; tauto) Hh En) as Hnew. apply new_type_name_inv in En as (-> & nm & ->).
      destruct s as [|c [|c' s]]; injection E as <- <-; (apply spelled_push; [exact I| |exact Logic.I]; cbn; intros s0 E0; injection E0 as <-; exact Hnew).
    - rewrite gen_cat_eq in E. destruct (gen_list (gen cs) _ b) as [[b1 ids]|] eqn:El; [|discriminate].
      pose proof (gen_list_words _ H _ _ _ Hr I El) as I1. clear El.
      unfold gen_cat in E. destruct (map_get nats_eqb ids (cat_map b1)); [injection E as <- <-; exact I1|].
      destruct (new_type_name _ _ _ _) as [[[x ident] b2]|] eqn:En; [|discriminate].
      pose proof (new_type_word (lit "Cat") _ _ _ _ _ ltac:(cbn; tauto) Hh En) as Hnew. apply new_type_name_inv in En as (-> & nm & ->). destruct (ids_ok _ _); [|discriminate].
      destruct (name_parts _ _ _ _ _) as [parts|] eqn:Ep; [|discriminate]. injection E as <- <-. apply spelled_push; [exact I1| |]; cbn; [intros s0 E0; injection E0 as <-; exact Hnew |].
      eapply name_parts_word; [| exact Ep]. now apply names_of_heads.
    - rewrite gen_alt_eq in E. destruct (gen_list (gen cs) _ b) as [[b1 ids]|] eqn:El; [|discriminate].
      pose proof (gen_list_words _ H _ _ _ Hr I El) as I1. clear El.
      unfold gen_alt in E. destruct (map_get nats_eqb ids (alt_map b1)); [injection E as <- <-; exact I1|].
      destruct (new_type_name _ _ _ _) as [[[x ident] b2]|] eqn:En; [|discriminate].
      pose proof (new_type_word (lit "Alt") _ _ _ _ _ ltac:(cbn; tauto) Hh En) as Hnew. apply new_type_name_inv in En as (-> & nm & ->). destruct (ids_ok _ _); [|discriminate].
      destruct (name_parts _ _ _ _ _) as [parts|] eqn:Ep; [|discriminate]. injection E as <- <-.
      destruct (forallb _ ids); (apply spelled_push; [exact I1| |]; cbn; [intros s0 E0; injection E0 as <-; exact Hnew |]; eapply name_parts_word; [| exact Ep]; now apply names_of_heads).
    - cbn [gen] in E. destruct (map_get texpr_eqb e (fix_map b)); [injection E as <- <-; exact I|].
      destruct (new_type_name _ _ _ _) as [[[x ident] b2]|] eqn:En; [|discriminate].
      pose proof (new_type_word (lit "Fix") _ _ _ _ _ ltac:(cbn; tauto) Hh En) as Hnew. apply new_type_name_inv in En as (-> & nm & ->). cbv zeta in E.
      destruct (gen cs e _) as [[b4 j]|] eqn:E4; [|discriminate].
      assert (I4 : spelled (data b4)).
      { eapply IHe; [exact Hr | |exact E4]. apply spelled_push; [exact I| |exact Logic.I]; cbn; intros s0 E0; injection E0 as <-; exact Hnew. }
      cbn [data set_context] in E. destruct (nth_error (data b4) j); [|discriminate]. destruct (Nat.ltb _ _); [|discriminate].
      injection E as <- <-. apply Forall_forall. intros en Hin. apply In_nth_error in Hin as [i Hi]. cbn in Hi. rewrite update_nth in Hi. unfold spelled in I4. rewrite Forall_forall in I4.
      destruct (Nat.eqb i (List.length (data b))); [| apply I4; eapply nth_error_In; exact Hi].
      destruct (nth_error (data b4) i) as [en' |] eqn:Ei; [| discriminate]. injection Hi as <-. cbn. split; [| exact Logic.I]. exact (proj1 (I4 en' (nth_error_In _ _ Ei))).
    - cbn [gen] in E. unfold gen_variable in E. destruct (nth_error (context b) i) as [f|]; [|discriminate].
      destruct (map_get Nat.eqb f (var_map b)); [injection E as <- <-; exact I|].
      destruct (nth_error (data b) f); [|discriminate]. injection E as <- <-. apply spelled_push; [exact I|discriminate|exact Logic.I].
  Qed.
End Words.

Lemma keeps_named A B C N e : forall nm r, marked A B C N e -> name_ok N nm -> keeps nm e r -> Forall N (t_names r).
Proof.
  assert (O : forall o, name_ok N o -> Forall N (match o with Some n => [n] | None => [] end)) by (intros [n |]; cbn; auto).
  assert (L : forall (D : span -> Prop) r r', Forall (fun x : span * nexpr => forall nm t, marked A B C N (snd x) -> name_ok N nm -> keeps nm (snd x) t -> Forall N (t_names t)) r ->
    Forall (fun x => D (fst x) /\ marked A B C N (snd x)) r -> Forall2 (fun x t => keeps (e_name (snd x)) (snd x) t) r r' -> Forall N (flat_map t_names r')).
  { intros D r r' H M X. induction X as [| x y l l' Hx _ IH]; [constructor |]. inversion H as [| ? ? H1 H2]; subst. inversion M as [| ? ? [_ M1] M2]; subst.
    cbn [flat_map]. apply Forall_app. split; [eapply H1; [exact M1 | eapply marked_name; exact M1 | exact Hx] | auto]. }
  induction e using nexpr_ind_fix; intros nm t M Hn K.
  - inversion K; subst. cbn. rewrite app_nil_r. now apply O.
  - inversion K; subst. cbn. rewrite app_nil_r. now apply O.
  - inversion K as [| | | ? ? ? ? f' r' ty K1 K2 | |]; subst. inversion M as [| | ? ? ? M1 M2 M3 M4 | | | | | |]; subst. cbn [t_names flat_map]. apply Forall_app. split; [now apply O |]. apply Forall_app. split; [eapply IHe; [exact M2 | eapply marked_name; exact M2 | exact K1] | eapply L; [exact H | exact M3 | exact K2]].
  - inversion K as [| | | | ? ? ? ? f' r' ty K1 K2 |]; subst. inversion M as [| | | ? ? ? M1 M2 M3 M4 | | | | |]; subst. cbn [t_names flat_map]. apply Forall_app. split; [now apply O |]. apply Forall_app. split; [eapply IHe; [exact M2 | eapply marked_name; exact M2 | exact K1] | eapply L; [exact H | exact M3 | exact K2]].
  - inversion K as [| | | | | ? ? ? ? ? b' K1]; subst. inversion M as [| | | | ? ? M1 M2 | | | |]; subst. inversion M2 as [| | | | | | | ? ? ? M3 M4 M5 |]; subst. cbn [t_names]. apply Forall_app. split; [now apply O |].
    eapply IHe; [exact M5 | | exact K1]. apply merge3; [apply M3 | eapply marked_name; exact M5 | exact Hn].
  - inversion K; subst. exfalso. eapply H; reflexivity.
  - inversion K; subst. cbn. rewrite app_nil_r. now apply O.
  - inversion K.
  - inversion K.
  - inversion K.
Qed.

Lemma undeclared_occurs n : forall scope i ts, In i (undeclared scope n) -> within (to_tokens n) ts -> occurs (TkIdent i) ts.
Proof.
  assert (P : forall sep ps scope i ts, Forall (fun x : node * option span => forall scope i ts, In i (undeclared scope (fst x)) -> within (to_tokens (fst x)) ts -> occurs (TkIdent i) ts) ps ->
    In i (flat_map (fun x => undeclared scope (fst x)) ps) -> within (pairs_tokens to_tokens sep ps) ts -> occurs (TkIdent i) ts).
  { intros sep ps scope i ts H Hi W. apply in_flat_map in Hi as ([x p] & Hin & Hi). rewrite Forall_forall in H. eapply (H _ Hin); [exact Hi |]. eapply within_incl; [| exact W]. exact (proj1 (pairs_in to_tokens sep ps x p Hin)). }
  induction n using node_ind'; intros scope j ts1 Hi W; cbn [undeclared to_tokens] in Hi, W.
  - destruct Hi.
  - destruct (existsb _ scope); [destruct Hi |]. destruct Hi as [<- | []]. apply (within_in _ _ _ W). now left.
  - destruct Hi.
  - eapply IHn; [exact Hi |]. eapply within_incl; [| exact W]. apply incl_tl, incl_refl.
  - eapply IHn; [exact Hi |]. now apply within_group in W.
  - apply in_flat_map in Hi as (x & Hin & Hi). rewrite Forall_forall in H. eapply (H _ Hin); [exact Hi |]. eapply within_incl; [| exact W]. intros y Hy. apply in_flat_map. eauto.
  - eapply P; eauto.
  - eapply IHn; [exact Hi |]. eapply within_incl; [| exact W]. apply incl_appl, incl_refl.
  - eapply P; eauto.
  - eapply IHn; [exact Hi |]. eapply within_incl; [| exact W]. intros y Hy. right. apply in_or_app. right. now right.
Qed.
Lemma undeclared_stmt_occurs s : forall scope i ts, In i (undeclared_stmt scope s) -> within (stmt_tokens s) ts -> occurs (TkIdent i) ts.
Proof.
  induction s as [k n semi | k x args eq n semi next IH]; intros scope i ts Hi W; cbn [undeclared_stmt stmt_tokens] in Hi, W.
  - eapply undeclared_occurs; [exact Hi |]. eapply within_incl; [| exact W]. intros y Hy. right. apply in_or_app. now left.
  - apply in_app_or in Hi as [Hi | Hi].
    + eapply undeclared_occurs; [exact Hi |]. eapply within_incl; [| exact W]. intros y Hy. right. right. apply in_or_app. right. right. apply in_or_app. now left.
    + eapply IH; [exact Hi |]. eapply within_incl; [| exact W]. intros y Hy. right. right. apply in_or_app. right. right. apply in_or_app. right. now right.
Qed.
