(** * WriteConv: what the program of a grammar is converted to. *)
From Coq Require Import String.
From Verif Require Export WriteFacts SpecSame SpanFront PropSpan.
From Coq Require Import List Lia.
Import ListNotations.
Open Scope list_scope.

(** ** A program without its spans *)
Lemma unspan_idents n : node_idents (unspan_node n) = map unspan_ident (node_idents n).
Proof.
  induction n as [sp | i | v sp | b t IH | sp e IH | ts IH | ps IH | c l IH | ps IH | l args r e IH] using node_ind'; cbn [unspan_node node_idents]; try reflexivity; try exact IH.
  - induction IH as [| x l Hx _ IHl]; [reflexivity |]. cbn [map flat_map]. now rewrite map_app, Hx, IHl.
  - induction IH as [| x l Hx _ IHl]; [reflexivity |]. cbn [map flat_map fst]. now rewrite map_app, Hx, IHl.
  - rewrite map_app, IH. f_equal. destruct l as [[sp i] |]; reflexivity.
  - induction IH as [| x l Hx _ IHl]; [reflexivity |]. cbn [map flat_map fst]. now rewrite map_app, Hx, IHl.
  - rewrite map_app, IH. reflexivity.
Qed.
Lemma unspan_stmt_idents s : stmt_idents (unspan_stmt s) = map unspan_ident (stmt_idents s).
Proof.
  induction s as [k e semi | k i args eq e semi next IH]; cbn [unspan_stmt stmt_idents]; [apply unspan_idents |]. cbn [map]. now rewrite !map_app, unspan_idents, IH.
Qed.

(** ** Conversion *)
Inductive scope : nat -> context -> Prop :=
| scope_nil : scope 0 []
| scope_cons d sp ctx : scope d ctx -> scope (S d) (Spanned (Ident false (vs d) sp) :: ctx).
Lemma vs_eqb a b : rstr_eqb (vs a) (vs b) = Nat.eqb a b.
Proof.
  destruct (Nat.eqb_spec a b) as [-> | Hn]; [apply rstr_eqb_refl |]. destruct (rstr_eqb (vs a) (vs b)) eqn:E; [| reflexivity]. exfalso. apply rstr_eqb_eq in E.
  apply (f_equal (@length char)) in E. unfold vs in E. rewrite !repeat_length in E. lia.
Qed.
Lemma scope_position d ctx : scope d ctx -> forall i sp, i < d -> position (Spanned (Ident false (vs (d - 1 - i)) sp)) ctx = Some i.
Proof.
  induction 1 as [| d s ctx H IH]; intros i sp Hi; [lia |]. cbn [position content_eqb]. unfold ident_eqb. cbn [id_raw id_sym Bool.eqb andb]. rewrite vs_eqb.
  destruct i as [| i]; [replace (S d - 1 - 0) with d by lia; now rewrite Nat.eqb_refl |]. destruct (Nat.eqb_spec d (S d - 1 - S i)); [lia |]. replace (S d - 1 - S i) with (d - 1 - i) by lia. rewrite IH by lia. reflexivity.
Qed.
Definition is_lab (k : nat) (nm : option name) : Prop := exists sp, nm = Some (new_label (Spanned (Ident false (ls k) sp))).
Definition labs (k n : nat) (l : list (option name)) : Prop := Forall2 is_lab (seq k n) l.
Lemma labs_app k n m l l' : labs k n l -> labs (k + n) m l' -> labs k (n + m) (l ++ l').
Proof. intros H H'. unfold labs. rewrite seq_app. now apply Forall2_app. Qed.
Lemma set_ann_gram a e : gram_of (set_ann a e) = gram_of e.
Proof. destruct e; reflexivity. Qed.
Lemma set_ann_names a e nm : enames nm (set_ann a e) = enames nm e.
Proof. destruct e; reflexivity. Qed.
Lemma set_ann_name a e : e_name (set_ann a e) = a_name a.
Proof. destruct e; reflexivity. Qed.
Definition gives (join : span -> span -> option span) (n : node) (ctx : context) (g : gram) (k : nat) : Prop :=
  exists e, convert join n ctx = (Ok e, ctx) /\ gram_of e = Some g /\ forall nm, labs k (nfixes g) (enames nm e).
Lemma rest_cons f p n q l : convert_rest f p ((n, q) :: l) = bind (f n) (fun e => bind (convert_rest f (pair_span q) l) (fun r => ret ((p, e) :: r))).
Proof. reflexivity. Qed.
Section Conv.
  Context (join : span -> span -> option span).
  Lemma gives_call n m ctx g k : unspan_node n = NCall [m] -> (forall n', unspan_node n' = m -> gives join n' ctx g k) -> gives join n ctx g k.
  Proof.
    intros E H. destruct n as [| | | | | ts | | | |]; try discriminate E. cbn [unspan_node] in E. injection E as E. destruct ts as [| t [| t' ts]]; try discriminate E. injection E as E.
    destruct (H t E) as (e & He & Hr). exists e. split; [| exact Hr]. cbn [convert convert_args]. unfold bind, ret. now rewrite He.
  Qed.
  Lemma gives_cat1 n m ctx g k : unspan_node n = cat1 m -> (forall n', unspan_node n' = m -> gives join n' ctx g k) -> gives join n ctx g k.
  Proof.
    intros E H. destruct n as [| | | | | | ps | | |]; try discriminate E. cbn [unspan_node] in E. injection E as E. destruct ps as [| [x p] [| t' ts]]; try discriminate E. injection E as E _.
    destruct (gives_call x m ctx g k E H) as (e & He & Hr). exists e. split; [| exact Hr]. cbn [convert convert_rest]. unfold bind, ret. now rewrite He.
  Qed.
  Lemma gives_labelled n c ctx g k : unspan_node n = NLabelled c None -> (forall n', unspan_node n' = c -> gives join n' ctx g k) -> gives join n ctx g k.
  Proof.
    intros E H. destruct n as [| | | | | | | c' l | |]; try discriminate E. cbn [unspan_node] in E. injection E as E _. destruct (H c' E) as (e & He & Hg & Hn).
    eexists. split; [cbn [convert]; unfold bind, ret; rewrite He; reflexivity |]. split; [now rewrite set_ann_gram |]. intros nm. rewrite set_ann_names. apply Hn.
  Qed.
  Lemma gives_alt1 n x ctx g k : unspan_node n = NAltP [(x, None)] -> (forall n', unspan_node n' = x -> gives join n' ctx g k) -> gives join n ctx g k.
  Proof.
    intros E H. destruct n as [| | | | | | | | ps |]; try discriminate E. cbn [unspan_node] in E. injection E as E. destruct ps as [| [y p] [| t' ts]]; try discriminate E. injection E as E _.
    destruct (H y E) as (e & He & Hr). exists e. split; [| exact Hr]. cbn [convert convert_rest]. unfold bind, ret. now rewrite He.
  Qed.
  Lemma gives_paren n x ctx g k : unspan_node n = NParen 0%N x -> (forall n', unspan_node n' = x -> gives join n' ctx g k) -> gives join n ctx g k.
  Proof. intros E H. destruct n; try discriminate E. cbn [unspan_node] in E. injection E as E. destruct (H n E) as (e & He & Hr). exists e. split; [exact He | exact Hr]. Qed.
  (** The parts of a concatenation or an alternation. *)
  Definition given (ctx : context) (l : list gram) (k : nat) (es : list nexpr) : Prop :=
    all_some (map gram_of es) = Some l /\ labs k (list_sum (map nfixes l)) (flat_map (fun e => enames (e_name e) e) es).
  Lemma rest_gives ctx w f l : (forall k x n, In x l -> unspan_node n = w (f k x) -> gives join n ctx x k) ->
    forall k ps p, map (fun x => (unspan_node (fst x), option_map (fun _ => call_site) (snd x))) ps = puncts (map w (terms f k l)) ->
    exists r, convert_rest (convert join) p ps ctx = (Ok r, ctx) /\ given ctx l k (map snd r) /\ length r = length l.
  Proof.
    induction l as [| g l IH]; intros H k ps p E.
    - destruct ps; [| discriminate E]. exists []. split; [reflexivity |]. split; [split; [reflexivity | constructor] | reflexivity].
    - cbn [terms map puncts] in E. destruct ps as [| [x q] ps]; [discriminate E |]. cbn [map fst snd] in E. injection E as E1 _ E2.
      destruct (H k g x (or_introl eq_refl) E1) as (e & He & Hg & Hn). destruct (IH (fun k' y n Hy => H k' y n (or_intror Hy)) _ ps (pair_span q) E2) as (r & Hr & (R1 & R2) & R3).
      exists ((p, e) :: r). split; [rewrite rest_cons; unfold bind, ret; rewrite He, Hr; reflexivity |].
      split; [| cbn; lia]. split; [cbn [map snd all_some]; now rewrite Hg, R1 |]. cbn [map list_sum fold_right flat_map snd]. apply labs_app; [apply Hn | exact R2].
  Qed.
  Lemma gives_term g : forall d k ctx n, closed_below d g -> proper g = true -> scope d ctx -> unspan_node n = term k d g -> gives join n ctx g k.
  Proof.
    induction g as [| s | l IH | l IH | b IH | i] using gram_ind'; intros d k ctx n Hc Hp Hs E; cbn [term] in E.
    - destruct n; try discriminate E. eexists. split; [reflexivity |]. split; [reflexivity |]. intros nm. constructor.
    - destruct n; try discriminate E. injection E as E. subst. eexists. split; [reflexivity |]. split; [reflexivity |]. intros nm. constructor.
    - cbn [proper] in Hp. apply andb_prop in Hp as [Hl Hp]. apply Nat.leb_le in Hl. rewrite forallb_forall in Hp. cbn [closed_below] in Hc. apply closed_all in Hc. rewrite Forall_forall in Hc, IH.
      eapply gives_paren; [exact E |]. clear n E. intros n E. eapply gives_alt1; [exact E |]. clear n E. intros n E. eapply gives_labelled; [exact E |]. clear n E. intros n E.
      destruct n as [| | | | | | ps | | |]; try discriminate E. cbn [unspan_node] in E. injection E as E.
      destruct l as [| g l]; [cbn in Hl; lia |]. cbn [terms map puncts] in E. destruct ps as [| [x q] ps]; [discriminate E |]. cbn [map fst snd] in E. injection E as E1 _ E2.
      destruct (gives_call x _ ctx g k E1) as (e & He & Hg & Hn). { intros n' En. eapply IH; eauto; [now left | apply Hc; now left | apply Hp; now left]. }
      destruct (rest_gives ctx (fun n => NCall [n]) (fun k x => term k d x) l) with (k := k + nfixes g) (ps := ps) (p := pair_span q) as (r & Hr & (R1 & R2) & R3); [| exact E2 |].
      { intros k' y n Hy En. eapply gives_call; [exact En |]. intros n' En'. eapply IH; eauto; [now right | apply Hc; now right | apply Hp; now right]. }
      destruct r as [| y r]; [cbn in R3, Hl; lia |]. eexists. split; [cbn [convert]; unfold bind, ret; rewrite He, Hr; reflexivity |].
      cbn [gram_of enames]. rewrite Hg. rewrite map_map in R1. rewrite R1. split; [reflexivity |]. intros nm. cbn [nfixes map list_sum fold_right]. apply labs_app; [apply Hn |]. rewrite flat_map_concat_map, map_map, <- flat_map_concat_map in R2. exact R2.
    - cbn [proper] in Hp. apply andb_prop in Hp as [Hl Hp]. apply Nat.leb_le in Hl. rewrite forallb_forall in Hp. cbn [closed_below] in Hc. apply closed_all in Hc. rewrite Forall_forall in Hc, IH.
      eapply gives_paren; [exact E |]. clear n E. intros n E.
      destruct n as [| | | | | | | | ps |]; try discriminate E. cbn [unspan_node] in E. injection E as E.
      destruct l as [| g l]; [cbn in Hl; lia |]. cbn [terms map puncts] in E. destruct ps as [| [x q] ps]; [discriminate E |]. cbn [map fst snd] in E. injection E as E1 _ E2.
      destruct (gives_labelled x _ ctx g k E1) as (e & He & Hg & Hn). { intros n' En. eapply gives_cat1; [exact En |]. intros n'' En'. eapply IH; eauto; [now left | apply Hc; now left | apply Hp; now left]. }
      destruct (rest_gives ctx (fun n => NLabelled (cat1 n) None) (fun k x => term k d x) l) with (k := k + nfixes g) (ps := ps) (p := pair_span q) as (r & Hr & (R1 & R2) & R3); [| exact E2 |].
      { intros k' y n Hy En. eapply gives_labelled; [exact En |]. intros n' En'. eapply gives_cat1; [exact En' |]. intros n'' En''. eapply IH; eauto; [now right | apply Hc; now right | apply Hp; now right]. }
      destruct r as [| y r]; [cbn in R3, Hl; lia |]. eexists. split; [cbn [convert]; unfold bind, ret; rewrite He, Hr; reflexivity |].
      cbn [gram_of enames]. rewrite Hg. rewrite map_map in R1. rewrite R1. split; [reflexivity |]. intros nm. cbn [nfixes map list_sum fold_right]. apply labs_app; [apply Hn |]. rewrite flat_map_concat_map, map_map, <- flat_map_concat_map in R2. exact R2.
    - destruct n as [| | | b0 n | | | | | |]; try discriminate E. cbn [unspan_node] in E. injection E as E. destruct n as [| | | | sp n | | | | |]; try discriminate E. cbn [unspan_node] in E. injection E as E.
      destruct n as [| | | | | | | | | l0 args r0 n]; try discriminate E. cbn [unspan_node] in E. injection E as Ea E. destruct args as [| a [| a' args]]; try discriminate Ea. destruct a as [raw sym asp]. cbn [map unspan_ident id_raw id_sym] in Ea. injection Ea as -> ->.
      destruct n as [| | | | | | | | ps |]; try discriminate E. cbn [unspan_node] in E. injection E as E. destruct ps as [| [y p] [| t' ts]]; try discriminate E. injection E as E _.
      destruct y as [| | | | | | | c lb | |]; try discriminate E. cbn [unspan_node] in E. injection E as E El. destruct lb as [[lsp [raw sym isp]] |]; try discriminate El. cbn [unspan_ident id_raw id_sym] in El. injection El as -> ->.
      destruct (gives_cat1 c _ (Spanned (Ident false (vs d) asp) :: ctx) b (S k) E) as (e & He & Hg & Hn).
      { intros n' En. eapply IH; [exact Hc | exact Hp | constructor; exact Hs | exact En]. }
      eexists. split.
      { cbn [convert convert_rest map]. unfold bind, ret, with_variables. cbn [map rev app n_content new_variable length]. rewrite He. cbn [length].
        destruct (Nat.ltb_spec (S (length ctx)) (length ctx)); [lia |]. replace (S (length ctx) - length ctx) with 1 by lia. cbn [skipn]. reflexivity. }
      cbn [gram_of length]. rewrite set_ann_gram, Hg. split; [reflexivity |]. intros nm. cbn [enames a_name]. rewrite set_ann_name, set_ann_names. cbn [a_name].
      assert (Em : forall o, merge (Some (new_label (Spanned (Ident false (ls k) isp)))) o = Some (new_label (Spanned (Ident false (ls k) isp)))) by (intros [[? []] |]; reflexivity).
      rewrite Em. match goal with |- context [merge_all [None; ?x; nm]] => change (merge_all [None; x; nm]) with (merge x nm) end. rewrite Em. unfold labs. cbn [nfixes seq]. constructor; [now exists isp | apply Hn].
    - destruct n as [| j | | | | | | | |]; try discriminate E. cbn [unspan_node] in E. destruct j as [raw sym sp]. cbn [unspan_ident id_raw id_sym] in E. injection E as -> ->. cbn [closed_below] in Hc.
      eexists. split; [cbn [convert]; unfold lookup; cbn [n_content new_variable]; rewrite (scope_position d ctx Hs i sp Hc); reflexivity |]. split; [reflexivity |]. intros nm. constructor.
  Qed.
End Conv.
