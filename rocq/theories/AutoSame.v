(** * AutoSame: the two front ends give expressions that differ only in
    positions and in how names are kept. *)
From Coq Require Import String.
From Verif Require Import SpecDistinct.
From Verif Require Export SpanFront SameFacts AutoMain AutoFront.
From Coq Require Import List Lia.
Open Scope list_scope.

(** A name as a text. *)
Notation plain := (map_expr plain_name).

Lemma plain_eqb a b : unraw a -> unraw b -> name_eqb (plain_name a) (plain_name b) = name_eqb a b.
Proof.
  destruct a as [[i | s] k], b as [[j | u] l]; cbn; intros Ha Hb; unfold name_eqb; cbn; try reflexivity.
  - unfold ident_eqb. rewrite Ha, Hb. reflexivity.
  - f_equal. apply eq_true_iff_eq. rewrite !rstr_eqb_eq. split; congruence.
Qed.
Lemma same_name_plain a b : same_name a b -> plain_name a = plain_name b.
Proof. now destruct 1. Qed.
Lemma same_oname_plain a b : same_oname a b -> option_map plain_name a = option_map plain_name b.
Proof. destruct 1; cbn; [reflexivity |]. f_equal. now apply same_name_plain. Qed.
Lemma same_ann_plain a b : same_ann a b -> map_ann plain_name a = map_ann plain_name b.
Proof. intros H. unfold map_ann. now rewrite (same_oname_plain _ _ H). Qed.
Lemma Forall2_map_eq {A B C} (R : A -> B -> Prop) (f : A -> C) (g : B -> C) l m : Forall2 R l m -> (forall x y, In x l -> R x y -> f x = g y) -> map f l = map g m.
Proof. induction 1 as [| x y l m H _ IH]; intros K; cbn; [reflexivity |]. f_equal; [apply K; [now left | exact H] |]. apply IH. intros a b Ha. apply K. now right. Qed.
(** Generic over what is kept of names. *)
Lemma same_expr_map (f g : name -> name) : (forall a b, same_name a b -> f a = g b) -> forall e e', same_expr e e' -> map_expr f e = map_expr g e'.
Proof.
  intros N. assert (O : forall a b, same_ann a b -> map_ann f a = map_ann g b) by (intros a b H; unfold map_ann; destruct H as [| x y H]; cbn; [reflexivity | now rewrite (N _ _ H)]).
  assert (L : forall l m, Forall2 same_name l m -> map f l = map g m) by (intros l m H; eapply Forall2_map_eq; [exact H |]; auto).
  induction e using nexpr_ind'; intros e' S; inversion S; subst; cbn [map_expr]; f_equal; auto.
  - eapply Forall2_map_eq; [eassumption |]. cbn. intros x0 y0 Hin Hs. rewrite Forall_forall in H. f_equal. now apply H.
  - eapply Forall2_map_eq; [eassumption |]. cbn. intros x0 y0 Hin Hs. rewrite Forall_forall in H. f_equal. now apply H.
  - eapply Forall2_map_eq; [eassumption |]. intros x0 y0 Hin Hs. rewrite Forall_forall in H. now apply H.
Qed.
(** ** The goal *)
Definition from_source (o : option name) : Prop := exists i k, o = Some (Name (Spanned i) k).
Definition not_let (e : nexpr) : Prop := match e with ELet _ _ _ _ => False | _ => True end.
Lemma bind_ok {A B} (m : conv A) (k : A -> conv B) ctx y c : bind m k ctx = (Ok y, c) -> exists x c1, m ctx = (Ok x, c1) /\ k x c1 = (Ok y, c).
Proof. unfold bind. destruct (m ctx) as [[x | | |] c1]; intros H; try discriminate H. eauto. Qed.
Lemma set_ann_not_let a e : not_let e -> not_let (set_ann a e).
Proof. now destruct e. Qed.
Lemma set_ann_name a e : e_name (set_ann a e) = a_name a.
Proof. now destruct e. Qed.
Lemma convert_not_let join n : forall ctx e c, convert join n ctx = (Ok e, c) -> not_let e.
Proof.
  induction n as [sp | i | v sp | b t IH | sp e IH | ts IH | ps IH | x l IH | ps IH | l args r e IH] using node_ind'; intros ctx e0 c0; cbn [convert].
  - intros [= <- _]. exact Logic.I.
  - unfold lookup. destruct (position _ ctx); intros [= <- _]; exact Logic.I.
  - intros [= <- _]. exact Logic.I.
  - intros H. apply bind_ok in H as (x & c1 & _ & [= <- _]). exact Logic.I.
  - apply IH.
  - destruct ts as [| t ts]; [discriminate |]. inversion IH as [| ? ? H1 H2]; subst. intros H. apply bind_ok in H as (x & c1 & E & H). apply bind_ok in H as (y & c2 & _ & H). destruct y; injection H as <- _; [now apply (H1 _ _ _ E) | exact Logic.I].
  - destruct ps as [| [t p] ts]; [discriminate |]. inversion IH as [| ? ? H1 H2]; subst. intros H. apply bind_ok in H as (x & c1 & E & H). apply bind_ok in H as (y & c2 & _ & H). destruct y; injection H as <- _; [now apply (H1 _ _ _ E) | exact Logic.I].
  - intros H. apply bind_ok in H as (y & c1 & E & [= <- _]). apply set_ann_not_let. now apply (IH _ _ _ E).
  - destruct ps as [| [t p] ts]; [discriminate |]. inversion IH as [| ? ? H1 H2]; subst. intros H. apply bind_ok in H as (x & c1 & E & H). apply bind_ok in H as (y & c2 & _ & H). destruct y; injection H as <- _; [now apply (H1 _ _ _ E) | exact Logic.I].
  - intros H. apply bind_ok in H as (y & c1 & _ & [= <- _]). exact Logic.I.
Qed.
Lemma convert_from_source join n : has_name n -> forall ctx e c, convert join n ctx = (Ok e, c) -> from_source (e_name e).
Proof.
  induction 1 as [i | sp e H IH | t H IH | x p H IH | x l | x H IH | x p H IH]; intros ctx e0 c0; cbn [convert].
  - unfold lookup. destruct (position _ ctx); intros [= <- _]. do 2 eexists. reflexivity.
  - apply IH.
  - intros E. apply bind_ok in E as (x & c1 & E & K). cbn in K. injection K as <- _. now apply (IH _ _ _ E).
  - intros E. apply bind_ok in E as (y & c1 & E & K). cbn in K. injection K as <- _. now apply (IH _ _ _ E).
  - intros E. apply bind_ok in E as (y & c1 & E & [= <- _]). rewrite set_ann_name. destruct l as [sp i]. cbn [a_name]. destruct (e_name y) as [[m k] |]; cbn; [destruct k |]; do 2 eexists; reflexivity.
  - intros E. apply bind_ok in E as (y & c1 & E & [= <- _]). rewrite set_ann_name. cbn [a_name]. specialize (IH _ _ _ E). now destruct (e_name y).
  - intros E. apply bind_ok in E as (y & c1 & E & K). cbn in K. injection K as <- _. now apply (IH _ _ _ E).
Qed.
Lemma set_ann_inj a b x y : set_ann a x = set_ann b y -> a = b /\ forall c, set_ann c x = set_ann c y.
Proof. destruct x, y; cbn; intros H; inversion H; subst; split; reflexivity. Qed.
Lemma set_ann_same e : set_ann (Ann (e_name e) (e_span e)) e = e.
Proof. destruct e as [[] | [] | [] | [] | [] | [] | [] | [] | []]; reflexivity. Qed.
Lemma same_program_plain join st : forall ctx e e' c, convert_stmt join st ctx = (Ok e', c) -> has_name (goal_of st) -> same_program e e' -> plain e = plain e'.
Proof.
  induction st as [k n semi | k i args eq n semi next IH]; intros ctx e e' c E G S; cbn [convert_stmt goal_of] in *.
  - apply bind_ok in E as (inner & c1 & E & [= <- _]). destruct (convert_from_source join n G _ _ _ E) as (i & k0 & N). pose proof (convert_not_let join n _ _ _ E) as NL.
    match type of S with same_program _ (set_ann ?A _) => remember A as an; set (goal := set_ann an inner) in S; assert (Hg : goal = set_ann an inner) by reflexivity; clearbody goal end. destruct S as [e x sp S | a b n0 m x y e e' Ha Hn Hx S].
    + rewrite (same_expr_map _ _ same_name_plain _ _ S). symmetry in Hg. apply set_ann_inj in Hg as [-> Hg]. rewrite N in Heqan. cbn in Heqan.
      assert (Nx : exists n0, e_name x = Some n0). { destruct (e_name x) as [m |]; [eauto |]. exfalso. destruct k0; discriminate Heqan. } destruct Nx as [n0 Nx]. rewrite Nx in *. cbn [goal_name] in *.
      rewrite Hg, map_set_ann2. rewrite <- (set_ann_same x) at 1. rewrite map_set_ann2, Nx. reflexivity.
    + exfalso. destruct inner; try discriminate Hg. exact NL.
  - apply bind_ok in E as (b & c1 & E1 & E). apply bind_ok in E as (u & c2 & E2 & E). apply bind_ok in E as (body & c3 & E3 & [= <- _]).
    inversion S as [e1 x sp S1 Q1 Q2 | a b0 n0 m x y e1 e2 Ha Hn Hx S1]; subst.
    + exfalso. destruct x; cbn [set_ann] in Q2; try discriminate Q2. injection Q2 as Q2 _ _ _ _. destruct (e_name _) in Q2; discriminate Q2.
    + cbn [map_expr]. f_equal; [now apply same_ann_plain | now apply same_name_plain | now apply (same_expr_map _ _ same_name_plain) | now apply (IH _ _ _ _ E3)].
Qed.

(** ** No raw names *)
Definition cook (n : name) : name := Name (match n_content n with Spanned i => Spanned (Ident false (id_sym i) call_site) | Spanless s => Spanless s end) (n_kind n).
Lemma cooked n : cook n = unspan_name n <-> unraw n.
Proof.
  destruct n as [[[r s sp] | s] k]; unfold cook, unspan_name, unraw; cbn; (split; [intros H | intros H]); try exact Logic.I; try reflexivity.
  - injection H as H. now symmetry.
  - unfold unspan_ident. cbn. now rewrite H.
Qed.
Lemma map_texpr_names f g e : map_texpr f e = map_texpr g e -> Forall (fun n => f n = g n) (t_names e).
Proof.
  assert (A : forall a, option_map f (a_name a) = option_map g (a_name a) -> Forall (fun n => f n = g n) (match a_name a with Some n => [n] | None => [] end)).
  { intros [[n |] sp]; cbn; intros H; [| constructor]. injection H as H. auto. }
  assert (F : forall l, map (map_texpr f) l = map (map_texpr g) l -> Forall (fun e => map_texpr f e = map_texpr g e -> Forall (fun n => f n = g n) (t_names e)) l -> Forall (fun n => f n = g n) (flat_map t_names l)).
  { induction l as [| x l IH]; cbn; intros E K; [constructor |]. injection E as E1 E2. inversion K; subst. apply Forall_app. auto. }
  induction e using texpr_ind'; cbn [map_texpr t_names]; intros E; inversion E; unfold t_name; cbn [t_ann]; apply Forall_app; (split; [now apply A |]); auto.
Qed.
Lemma unraw_kept fuel e v r : map_expr cook e = map_expr unspan_name e -> reduce fuel e = Ok v -> typecheck v = Ok r -> key_ok unraw r.
Proof.
  intros E Hr Ht. pose proof (map_reduce cook (fun _ => eq_refl) fuel e) as A. pose proof (map_reduce unspan_name (fun _ => eq_refl) fuel e) as B. rewrite E, B, Hr in A. cbn in A. injection A as A.
  pose proof (map_typecheck cook (fun _ => eq_refl) v) as C. pose proof (map_typecheck unspan_name (fun _ => eq_refl) v) as D. rewrite <- A, D, Ht in C. cbn in C. injection C as C.
  unfold key_ok. symmetry in C. eapply Forall_impl; [| exact (map_texpr_names _ _ _ C)]. cbn. intros n. now apply cooked.
Qed.

Lemma same_name_cook a b : same_name a b -> cook a = plain_name b /\ unspan_name a = plain_name b.
Proof. now destruct 1. Qed.
Definition spanned (n : name) : name := Name (Spanned (Ident false (name_text n) call_site)) (n_kind n).
Lemma same_name_spanned a b : same_name a b -> spanned a = cook b /\ spanned a = unspan_name b.
Proof. intros [i k H]. unfold unspan_name, unspan_content, unspan_ident. cbn. now rewrite H. Qed.
Lemma same_expr_left e x : same_expr e x -> map_expr cook e = map_expr unspan_name e.
Proof. intros S. rewrite (same_expr_map cook plain_name) with (e' := x); [symmetry; apply same_expr_map; [| exact S] | | exact S]; intros a b H; now apply same_name_cook. Qed.
Lemma same_expr_right e x : same_expr e x -> map_expr cook x = map_expr unspan_name x.
Proof. intros S. rewrite <- (same_expr_map spanned cook) with (e := e); [apply same_expr_map; [| exact S] | | exact S]; intros a b H; now apply same_name_spanned. Qed.
Lemma same_ann_cook a b : same_ann a b -> map_ann cook a = map_ann unspan_name a /\ map_ann cook b = map_ann unspan_name b.
Proof.
  intros S. unfold map_ann. destruct S as [| n m S]; cbn; [split; reflexivity |]. destruct (same_name_cook _ _ S) as [-> ->], (same_name_spanned _ _ S) as [<- <-]. split; reflexivity.
Qed.
Lemma same_program_cook e e' : same_program e e' -> map_expr cook e = map_expr unspan_name e /\ map_expr cook e' = map_expr unspan_name e'.
Proof.
  induction 1 as [e x sp S | a b n m x y e e' Ha Hn Hx _ [IH1 IH2]].
  - split; [exact (same_expr_left _ _ S) |]. pose proof (same_expr_right _ _ S) as R. rewrite !map_set_ann2, R. do 2 f_equal. apply (f_equal e_name) in R. rewrite !map_e_name in R. destruct (e_name x); [exact R | reflexivity].
  - cbn [map_expr]. destruct (same_ann_cook _ _ Ha) as [A1 A2], (same_name_cook _ _ Hn) as [N1 N2], (same_name_spanned _ _ Hn) as [M1 M2]. rewrite A1, A2, N1, N2, <- M1, <- M2, IH1, IH2, (same_expr_left _ _ Hx), (same_expr_right _ _ Hx). split; reflexivity.
Qed.
Definition plainly {A} (x : res A main_error) : res A main_error := res_both (fun c => c) (map_main_error plain_name) x.
Lemma text_plain n : name_text (plain_name n) = name_text n.
Proof. reflexivity. Qed.
Lemma back_end_plain cs fuel e : map_expr cook e = map_expr unspan_name e -> back_end cs fuel (plain e) = plainly (back_end cs fuel e).
Proof. intros H. apply (back_end_map plain_name unraw); [reflexivity | exact text_plain | exact plain_eqb |]. intros v r. now apply unraw_kept. Qed.
Theorem back_end_exact join st cs fuel e e' : convert_program join st = Ok e' -> has_name (goal_of st) -> same_program e e' -> plainly (back_end cs fuel e) = plainly (back_end cs fuel e').
Proof.
  intros E G S. unfold convert_program in E. destruct (convert_stmt join st []) as [r c] eqn:C. cbn in E. subst r.
  destruct (same_program_cook _ _ S) as [H1 H2]. rewrite <- (back_end_plain cs fuel e H1), <- (back_end_plain cs fuel e' H2). f_equal. exact (same_program_plain join st _ _ _ _ C G S).
Qed.

(** ** The same lambda term *)
Lemma set_ann_erase a e : erase (set_ann a e) = erase e.
Proof. now destruct e. Qed.
Lemma same_expr_erase e : forall x, same_expr e x -> erase e = erase x.
Proof.
  induction e using nexpr_ind'; intros x S; inversion S; subst; cbn [erase]; f_equal; auto.
  - f_equal; [auto |]. eapply Forall2_map_eq; [eassumption |]. cbn. intros x0 y0 Hin Hs. rewrite Forall_forall in H. now apply H.
  - f_equal; [auto |]. eapply Forall2_map_eq; [eassumption |]. cbn. intros x0 y0 Hin Hs. rewrite Forall_forall in H. now apply H.
  - eapply Forall2_map_eq; [eassumption |]. intros x0 y0 Hin Hs. rewrite Forall_forall in H. now apply H.
  - match goal with F : Forall2 _ _ _ |- _ => clear - F; induction F; cbn; congruence end.
Qed.
Lemma same_program_erase e e' : same_program e e' -> erase e = erase e'.
Proof.
  induction 1 as [e x sp S | a b n m x y e e' Ha Hn Hx _ IH].
  - rewrite set_ann_erase. now apply same_expr_erase.
  - cbn [erase]. f_equal; [now apply same_expr_erase | exact IH].
Qed.
