(** * DisplayFacts: reading back the text of an expression. *)
From Coq Require Import String.
From Verif Require Export Display SpecDisplay NameFacts.
From Coq Require Import List NArith Lia.
Open Scope list_scope.
Open Scope nat_scope.

Inductive shape : Type :=
| SWord (w : rstr) | SIndex (w : rstr) | SCat (f : shape) (l : list shape) | SAlt (f : shape) (l : list shape) | SFix (i : shape)
| SCall (f : shape) (l : list shape) | SLam (ws : list rstr) (i : shape) | SLet (w : rstr) (x y : shape) | SNamed (s : shape) (w : rstr).
Definition name_shape (e : nexpr) (s : shape) : shape :=
  match e_name e with
  | Some n => match e with EVar _ _ => SWord (name_display n) | _ => SNamed s (name_display n) end
  | None => s
  end.
Definition arg_words (l : list name) : list rstr := match l with [] => [[]] | _ => map name_display l end.
Fixpoint shape0 (e : nexpr) : shape :=
  match e with
  | EEps _ => SWord (lit "_")
  | ELit _ s => SWord s
  | ECat _ f r => SCat (name_shape f (shape0 f)) (map (fun x => name_shape (snd x) (shape0 (snd x))) r)
  | EAlt _ f r => SAlt (name_shape f (shape0 f)) (map (fun x => name_shape (snd x) (shape0 (snd x))) r)
  | EFix _ i => SFix (name_shape i (shape0 i))
  | EVar _ i => SIndex (dec i)
  | ECall _ o l => SCall (name_shape o (shape0 o)) (map (fun x => name_shape x (shape0 x)) l)
  | ELam _ ns i => SLam (arg_words ns) (name_shape i (shape0 i))
  | ELet _ n x y => SLet (name_display n) (name_shape x (shape0 x)) (name_shape y (shape0 y))
  end.
Definition shape_of (e : nexpr) : shape := name_shape e (shape0 e).

(** ** The reader *)
Definition wordb (c : char) : bool := negb (existsb (N.eqb c) (lit " ();,/!'")).
Fixpoint read_word (s : rstr) : rstr * rstr :=
  match s with
  | [] => ([], [])
  | c :: s' => if wordb c then let (w, r) := read_word s' in (c :: w, r) else ([], s)
  end.
Fixpoint strip (p s : rstr) : option rstr :=
  match p, s with
  | [], _ => Some s
  | a :: p', b :: s' => if (a =? b)%N then strip p' s' else None
  | _, [] => None
  end.
Fixpoint read_names (k : nat) (s : rstr) : option (list rstr * rstr) :=
  match k with
  | 0 => None
  | S k => let (w, r) := read_word s in
    match strip (lit ", ") r with
    | Some r' => match read_names k r' with Some (l, r2) => Some (w :: l, r2) | None => None end
    | None => match strip (lit "/ ") r with Some r' => Some ([w], r') | None => None end
    end
  end.
Section Items.
  Variable rd : rstr -> option (shape * rstr).
  Fixpoint items (k : nat) (sep s : rstr) : option (list shape * rstr) :=
    match k with
    | 0 => None
    | S k =>
      match strip sep s with
      | Some s1 => match rd s1 with
                   | Some (d, s2) => match items k sep s2 with Some (l, s3) => Some (d :: l, s3) | None => None end
                   | None => None
                   end
      | None => match strip (lit ")") s with Some s1 => Some ([], s1) | None => None end
      end
    end.
End Items.
Definition made (f : list shape -> shape) (x : option (list shape * rstr)) : option (shape * rstr) :=
  match x with Some (l, r) => Some (f l, r) | None => None end.
Fixpoint read (n : nat) (s : rstr) : option (shape * rstr) :=
  match n with
  | 0 => None
  | S n =>
    match s with
    | [] => None
    | c :: s1 =>
      if (c =? 40)%N then
        match read n s1 with
        | None => None
        | Some (f, s2) =>
          match strip (lit " . ") s2, strip (lit " | ") s2, strip (lit " : ") s2 with
          | Some _, _, _ => made (SCat f) (items (read n) n (lit " . ") s2)
          | None, Some _, _ => made (SAlt f) (items (read n) n (lit " | ") s2)
          | None, None, Some s3 => let (w, s4) := read_word s3 in match strip (lit ")") s4 with Some s5 => Some (SNamed f w, s5) | None => None end
          | None, None, None => made (SCall f) (items (read n) n (lit " ") s2)
          end
        end
      else if (c =? 33)%N then match read n s1 with Some (i, r) => Some (SFix i, r) | None => None end
      else if (c =? 39)%N then let (w, r) := read_word s1 in Some (SIndex w, r)
      else if (c =? 47)%N then
        match read_names n s1 with
        | Some (ws, r) => match read n r with Some (i, r') => Some (SLam ws i, r') | None => None end
        | None => None
        end
      else
        let (w, r) := read_word s in
        if rstr_eqb w (lit "let") then
          match strip (lit " ") r with
          | Some r1 =>
            let (nm, r2) := read_word r1 in
            match strip (lit " = ") r2 with
            | Some r3 =>
              match read n r3 with
              | Some (x, r4) => match strip (lit "; ") r4 with
                                | Some r5 => match read n r5 with Some (y, r6) => Some (SLet nm x y, r6) | None => None end
                                | None => None
                                end
              | None => None
              end
            | None => None
            end
          | None => None
          end
        else Some (SWord w, r)
    end
  end.

(** ** Words *)
Lemma wordb_true c : wordb c = true <-> word_char c.
Proof.
  unfold wordb, word_char. rewrite negb_true_iff. split.
  - intros H K. assert (T : existsb (N.eqb c) (lit " ();,/!'") = true) by (apply existsb_exists; exists c; split; [exact K | apply N.eqb_refl]). congruence.
  - intros H. destruct (existsb _ _) eqn:E; [| reflexivity]. apply existsb_exists in E as (d & Hd & Ed). apply N.eqb_eq in Ed. subst. contradiction.
Qed.
Definition stops (u : rstr) : Prop := match u with [] => True | c :: _ => wordb c = false end.
Lemma read_word_app w u : Forall word_char w -> stops u -> read_word (w ++ u) = (w, u).
Proof.
  induction 1 as [| c w Hc _ IH]; intros Hu; cbn [app read_word].
  - destruct u as [| c u]; [reflexivity |]. cbn [read_word]. cbn in Hu. now rewrite Hu.
  - rewrite (proj2 (wordb_true c) Hc). now rewrite (IH Hu).
Qed.
Lemma strip_app p u : strip p (p ++ u) = Some u.
Proof. induction p as [| a p IH]; cbn [strip app]; [reflexivity |]. now rewrite N.eqb_refl. Qed.
Lemma word_head w : wordlike w -> exists c w', w = c :: w' /\ wordb c = true.
Proof. intros (H1 & H2 & _). destruct w as [| c w]; [congruence |]. inversion H2; subst. do 2 eexists. split; [reflexivity |]. now apply wordb_true. Qed.
Lemma dec_chars i : Forall word_char (dec i).
Proof.
  eapply Forall_impl; [| apply dec_digits]. intros c [H1 H2] H.
  assert (K : forall d, In d (lit " ();,/!'") -> (d < 48)%N \/ (57 < d)%N) by (intros d Hd; cbv in Hd; repeat (destruct Hd as [<- | Hd]; [lia |]); contradiction).
  apply K in H. lia.
Qed.
Ltac fits := repeat match goal with H : wordlike _ |- _ => let a := fresh in let b := fresh in destruct H as (a & b & H) end.

(** ** The texts *)
Definition tail_text {A} (f : A -> nexpr) (sep : rstr) (l : list A) : rstr := flat_map (fun x => sep ++ display (f x)) l.
Lemma cat_text a f r : expr_text (ECat a f r) = lit "(" ++ display f ++ tail_text snd (lit " . ") r ++ lit ")".
Proof. reflexivity. Qed.
Lemma alt_text a f r : expr_text (EAlt a f r) = lit "(" ++ display f ++ tail_text snd (lit " | ") r ++ lit ")".
Proof. reflexivity. Qed.
Lemma call_text a o l : expr_text (ECall a o l) = lit "(" ++ display o ++ tail_text (fun x => x) (lit " ") l ++ lit ")".
Proof. reflexivity. Qed.

Fixpoint weight (e : nexpr) : nat :=
  match e with
  | EEps _ | ELit _ _ | EVar _ _ => 1
  | ECat _ f r | EAlt _ f r => 3 + weight f + list_sum (map (fun x => 1 + weight (snd x)) r)
  | EFix _ i => 2 + weight i
  | ECall _ o l => 3 + weight o + list_sum (map (fun x => 1 + weight x) l)
  | ELam _ ns i => 3 + length ns + weight i
  | ELet _ _ x y => 3 + weight x + weight y
  end.

Section Read.
  Variable L N : rstr -> Prop.
  Notation tame := (tame L N).
  Lemma tame_ann e : tame e -> ann_fits (e_ann e).
  Proof. destruct 1; assumption. Qed.

  Definition head_ok (t : rstr) : Prop := forall d u, In d (lit ".|:") -> stops u -> strip [d; 32%N] (t ++ u) = None.
  Lemma head_char c t : ~ In c (lit ".|:") -> head_ok (c :: t).
  Proof.
    intros H d u Hd _. cbn [app strip]. destruct (N.eqb_spec d c) as [-> |]; [contradiction | reflexivity].
  Qed.
  Lemma head_word w : wordlike w -> head_ok w.
  Proof.
    intros (H1 & H2 & H3) d u Hd Hu. destruct w as [| c w]; [congruence |]. cbn [app strip]. destruct (N.eqb_spec d c) as [-> |]; [| reflexivity].
    destruct w as [| c' w].
    - exfalso. apply H3. cbv in Hd |- *. destruct Hd as [<- | [<- | [<- | []]]]; tauto.
    - cbn [app strip]. apply Forall_inv_tail, Forall_inv in H2. destruct (N.eqb_spec 32 c') as [<- |]; [| reflexivity]. exfalso. apply H2. now left.
  Qed.
  Lemma head_display e : tame e -> head_ok (display e).
  Proof.
    intros H. unfold display, named_text. pose proof (tame_ann _ H) as Ha. unfold ann_fits in Ha. unfold e_name.
    assert (P : ~ In 40%N (lit ".|:")) by (cbv; intuition discriminate).
    destruct (a_name (e_ann e)) as [n |] eqn:En.
    - destruct e; try (apply head_char; exact P). now apply head_word.
    - destruct H; try (apply head_char; cbv; intuition discriminate). now apply head_word.
  Qed.
  Lemma strip_sep d t u : head_ok t -> In d (lit ".|:") -> stops u -> strip [32%N; d; 32%N] (32%N :: t ++ u) = None.
  Proof. intros H Hd Hu. change (strip [32%N; d; 32%N] (32%N :: t ++ u)) with (strip [d; 32%N] (t ++ u)). now apply H. Qed.

  Definition reads0 (e : nexpr) : Prop := forall n u, weight e <= n -> stops u -> read n (expr_text e ++ u) = Some (shape0 e, u).
  Definition reads (e : nexpr) : Prop := forall n u, weight e < n -> stops u -> read n (display e ++ u) = Some (shape_of e, u).
  Lemma read_items {A} (f : A -> nexpr) sep n (l : list A) : (forall s, strip (32%N :: sep) (41%N :: s) = None) ->
    Forall (fun x => reads (f x)) l -> Forall (fun x => weight (f x) < n) l -> forall k u, length l < k ->
    items (read n) k (32%N :: sep) (tail_text f (32%N :: sep) l ++ lit ")" ++ u) = Some (map (fun x => shape_of (f x)) l, u).
  Proof.
    intros Hs H1 H2. induction l as [| x l IH]; intros k u Hk; (destruct k as [| k]; [cbn in Hk; lia |]); cbn [items].
    - change (tail_text f (32%N :: sep) [] ++ lit ")" ++ u) with (41%N :: u). rewrite Hs. reflexivity.
    - change (tail_text f (32%N :: sep) (x :: l)) with (((32%N :: sep) ++ display (f x)) ++ tail_text f (32%N :: sep) l). rewrite <- !app_assoc, strip_app.
      apply Forall_cons_iff in H1 as [Hx H1]. apply Forall_cons_iff in H2 as [Wx H2].
      rewrite Hx; [| exact Wx | destruct l; reflexivity]. cbn [length] in Hk. rewrite IH; [reflexivity | exact H1 | exact H2 | lia].
  Qed.
  Lemma sum_lt {A} (f : A -> nat) l n : list_sum (map (fun x => 1 + f x) l) < n -> Forall (fun x => f x < n) l /\ length l < n.
  Proof.
    revert n. induction l as [| x l IH]; intros n H; [cbn in H; split; [constructor | cbn; lia] |].
    assert (E : list_sum (map (fun x => 1 + f x) (x :: l)) = 1 + f x + list_sum (map (fun x => 1 + f x) l)) by reflexivity. rewrite E in H.
    destruct (IH (n - 1)) as [I1 I2]; [lia |]. split; [| cbn [length]; lia]. constructor; [lia |]. eapply Forall_impl; [| exact I1]. cbn beta. intros; lia.
  Qed.
  Lemma read_names_text ns : Forall name_fits ns -> forall k u, length ns < k -> read_names k (names_text ns ++ lit "/ " ++ u) = Some (arg_words ns, u).
  Proof.
    destruct ns as [| n ns]; intros H k u Hk.
    - destruct k as [| k]; [cbn in Hk; lia |]. reflexivity.
    - apply Forall_cons_iff in H as [Hn H]. cbn [arg_words names_text]. revert n Hn k Hk. induction H as [| m ns Hm H IH]; intros n Hn k Hk; (destruct k as [| k]; [cbn in Hk; lia |]); cbn [read_names more_names map].
      + rewrite app_nil_r, (read_word_app _ _ (proj1 (proj2 Hn))) by reflexivity. reflexivity.
      + rewrite <- !app_assoc. rewrite (read_word_app _ _ (proj1 (proj2 Hn))) by reflexivity. rewrite strip_app. rewrite app_assoc. rewrite (IH m Hm k); [reflexivity | cbn in Hk |- *; lia].
  Qed.

  Lemma reads_named e : tame e -> reads0 e -> reads e.
  Proof.
    intros T H n u Hn Hu. unfold display, shape_of, named_text, name_shape. pose proof (tame_ann _ T) as Ha. unfold ann_fits in Ha. unfold e_name. destruct (a_name (e_ann e)) as [m |] eqn:Em; [| apply H; [lia | exact Hu]].
    assert (G : read n ((lit "(" ++ expr_text e ++ lit " : " ++ name_display m ++ lit ")") ++ u) = Some (SNamed (shape0 e) (name_display m), u)).
    { destruct n as [| n]; [lia |]. rewrite <- !app_assoc. cbn [lit app]. change (lit "(" ++ ?x) with (40%N :: x). cbn [read]. rewrite N.eqb_refl.
      rewrite H; [| lia | reflexivity]. change (strip (lit " . ") (lit " : " ++ ?x)) with (@None rstr). change (strip (lit " | ") (lit " : " ++ ?x)) with (@None rstr). rewrite strip_app.
      rewrite (read_word_app _ _ (proj1 (proj2 Ha))) by reflexivity. rewrite strip_app. reflexivity. }
    destruct e; try exact G.
    destruct n as [| n]; [lia |]. destruct (word_head _ Ha) as (c & w & E & Hc). cbn [read]. rewrite E. cbn [app].
    assert (K : forall d, wordb d = false -> (c =? d)%N = false) by (intros d Hd; apply N.eqb_neq; intros ->; congruence).
    rewrite !K by reflexivity. change (c :: w ++ u) with ((c :: w) ++ u). rewrite <- E. rewrite (read_word_app _ _ (proj1 (proj2 Ha)) Hu).
    destruct (rstr_eqb (name_display m) (lit "let")) eqn:El; [| reflexivity]. apply rstr_eqb_eq in El. exfalso. apply (proj2 (proj2 Ha)). rewrite El. right. now left.
  Qed.
  Lemma read_parts (f : nexpr) t d n u A (g : A -> nexpr) (l : list A) mk : t = lit "(" ++ display f ++ tail_text g [32%N; d; 32%N] l ++ lit ")" ->
    In (d, mk) [(46%N, SCat); (124%N, SAlt)] -> l <> [] ->
    tame f -> reads f -> Forall (fun x => reads (g x)) l -> 3 + weight f + list_sum (map (fun x => 1 + weight (g x)) l) <= n -> stops u ->
    read n (t ++ u) = Some (mk (shape_of f) (map (fun x => shape_of (g x)) l), u).
  Proof.
    intros -> Hd Hl Tf Rf Rl Hn Hu. destruct n as [| n]; [lia |]. rewrite <- !app_assoc. change (lit "(" ++ ?x) with (40%N :: x). cbn [read]. rewrite N.eqb_refl.
    destruct (sum_lt (fun x => weight (g x)) l n) as [S1 S2]; [lia |]. destruct l as [| x l]; [congruence |].
    rewrite Rf; [| lia | reflexivity]. 
    assert (It : items (read n) n [32%N; d; 32%N] (tail_text g [32%N; d; 32%N] (x :: l) ++ lit ")" ++ u) = Some (map (fun x => shape_of (g x)) (x :: l), u)) by (apply read_items; [reflexivity | exact Rl | exact S1 | exact S2]).
    assert (St : forall d', strip [32%N; d'; 32%N] (tail_text g [32%N; d; 32%N] (x :: l) ++ lit ")" ++ u) = if (d' =? d)%N then Some (display (g x) ++ tail_text g [32%N; d; 32%N] l ++ lit ")" ++ u) else None).
    { intros d'. change (tail_text g [32%N; d; 32%N] (x :: l)) with (([32%N; d; 32%N] ++ display (g x)) ++ tail_text g [32%N; d; 32%N] l). rewrite <- !app_assoc. cbn [app strip]. rewrite N.eqb_refl. now destruct (d' =? d)%N. }
    rewrite (St 46%N : strip (lit " . ") _ = _), (St 124%N : strip (lit " | ") _ = _).
    destruct Hd as [[= <- <-] | [[= <- <-] | []]]; cbn [N.eqb Pos.eqb]; [change (lit " . ") with [32%N; 46%N; 32%N] | change (lit " | ") with [32%N; 124%N; 32%N]]; now rewrite It.
  Qed.

  Lemma tame_reads0 e : tame e -> reads0 e /\ tame e.
  Proof.
    intros T. split; [| exact T]. revert T. induction e using nexpr_ind'; intros T k u Hn Hu.
    - destruct k as [| k]; [cbn in Hn; lia |]. cbn [expr_text shape0]. cbn [lit app read]. change (lit "_" ++ u) with (95%N :: u). cbn [read N.eqb Pos.eqb].
      change (95%N :: u) with ([95%N] ++ u). rewrite read_word_app; [reflexivity | | exact Hu]. constructor; [| constructor]. apply wordb_true. reflexivity.
    - inversion T as [| ? ? Ha Hw Hl | | | | | | |]; subst. destruct k as [| k]; [cbn in Hn; lia |]. cbn [expr_text shape0]. destruct (word_head _ Hw) as (c & w & E & Hc). cbn [read]. rewrite E. cbn [app].
      assert (K : forall d, wordb d = false -> (c =? d)%N = false) by (intros d Hd; apply N.eqb_neq; intros ->; congruence).
      rewrite !K by reflexivity. change (c :: w ++ u) with ((c :: w) ++ u). rewrite <- E. rewrite (read_word_app _ _ (proj1 (proj2 Hw)) Hu).
      destruct (rstr_eqb s (lit "let")) eqn:El; [| reflexivity]. apply rstr_eqb_eq in El. exfalso. apply (proj2 (proj2 Hw)). rewrite El. right. now left.
    - inversion T as [| | ? ? ? Ha Tf Tr Hr | | | | | |]; subst. rewrite cat_text. cbn [shape0].
      apply (read_parts e _ 46%N k u _ snd r SCat eq_refl (or_introl eq_refl) Hr Tf (reads_named _ Tf (IHe Tf))); [| exact Hn | exact Hu].
      rewrite Forall_forall in *. intros x Hx. apply reads_named; [now apply Tr |]. apply H; auto.
    - inversion T as [| | | ? ? ? Ha Tf Tr Hr | | | | |]; subst. rewrite alt_text. cbn [shape0].
      apply (read_parts e _ 124%N k u _ snd r SAlt eq_refl (or_intror (or_introl eq_refl)) Hr Tf (reads_named _ Tf (IHe Tf))); [| exact Hn | exact Hu].
      rewrite Forall_forall in *. intros x Hx. apply reads_named; [now apply Tr |]. apply H; auto.
    - inversion T as [| | | | ? ? Ha Ti | | | |]; subst. destruct k as [| k]; [cbn in Hn; lia |]. cbn [expr_text shape0]. fold (display e). rewrite <- app_assoc. change (lit "!" ++ ?x) with (33%N :: x). cbn [read N.eqb Pos.eqb].
      rewrite (reads_named _ Ti (IHe Ti) k u); [reflexivity | cbn in Hn; lia | exact Hu].
    - destruct k as [| k]; [cbn in Hn; lia |]. cbn [expr_text shape0]. rewrite <- app_assoc. change (lit "'" ++ ?x) with (39%N :: x). cbn [read N.eqb Pos.eqb]. now rewrite (read_word_app _ _ (dec_chars i) Hu).
    - inversion T as [| | | | | | ? ? ? Ha To Tl Hl | |]; subst. rewrite call_text. cbn [shape0]. destruct k as [| k]; [cbn in Hn; lia |]. rewrite <- !app_assoc. change (lit "(" ++ ?x) with (40%N :: x). cbn [read]. rewrite N.eqb_refl. cbn [weight] in Hn.
      destruct (sum_lt weight l k) as [S1 S2]; [lia |]. destruct l as [| x l]; [congruence |].
      rewrite (reads_named _ To (IHe To)); [| lia | reflexivity].
      assert (It : items (read k) k (lit " ") (tail_text (fun x => x) (lit " ") (x :: l) ++ lit ")" ++ u) = Some (map (fun x => shape_of x) (x :: l), u)).
      { apply (read_items (fun x => x) []); [reflexivity | | exact S1 | exact S2]. rewrite Forall_forall in *. intros y Hy. apply reads_named; [now apply Tl |]. apply H; auto. }
      assert (St : forall d, In d (lit ".|:") -> strip [32%N; d; 32%N] (tail_text (fun x => x) (lit " ") (x :: l) ++ lit ")" ++ u) = None).
      { intros d Hd. change (tail_text (fun x => x) (lit " ") (x :: l)) with (32%N :: display x ++ tail_text (fun x => x) (lit " ") l). cbn [app]. rewrite <- app_assoc.
        apply strip_sep; [apply head_display; now apply Forall_inv in Tl | exact Hd | destruct l; reflexivity]. }
      rewrite (St 46%N ltac:(cbn; tauto) : strip (lit " . ") _ = _), (St 124%N ltac:(cbn; tauto) : strip (lit " | ") _ = _), (St 58%N ltac:(cbn; tauto) : strip (lit " : ") _ = _).
      rewrite It. reflexivity.
    - inversion T as [| | | | | | | ? ? ? Ha Tn Ti |]; subst. cbn [weight] in Hn. destruct k as [| k]; [lia |]. cbn [expr_text shape0]. fold (display e). rewrite <- !app_assoc. change (lit "/" ++ ?x) with (47%N :: x). cbn [read N.eqb Pos.eqb].
      rewrite read_names_text; [| exact Tn | lia]. rewrite (reads_named _ Ti (IHe Ti) k u); [reflexivity | lia | exact Hu].
    - inversion T as [| | | | | | | | ? ? ? ? Ha Tn Tx Ty]; subst. cbn [weight] in Hn. destruct k as [| k]; [lia |]. cbn [expr_text shape0]. fold (display e1). fold (display e2). rewrite <- !app_assoc. change (lit "let " ++ ?x) with (lit "let" ++ lit " " ++ x).
      cbn [read]. change (lit "let" ++ ?x) with (108%N :: [101%N; 116%N] ++ x) at 1. cbn [N.eqb Pos.eqb].
      rewrite read_word_app; [| repeat constructor; apply wordb_true; reflexivity | reflexivity]. rewrite rstr_eqb_refl, strip_app.
      rewrite (read_word_app _ _ (proj1 (proj2 Tn))) by reflexivity. rewrite strip_app. rewrite (reads_named _ Tx (IHe1 Tx)); [| lia | reflexivity]. rewrite strip_app.
      rewrite (reads_named _ Ty (IHe2 Ty)); [reflexivity | lia | exact Hu].
  Qed.
  Theorem display_reads e : tame e -> reads e.
  Proof. intros T. apply reads_named; [exact T | now apply tame_reads0]. Qed.
End Read.

(** ** What the shape tells *)
Section Tell.
  Variable L N : rstr -> Prop.
  Hypothesis apart : forall w, L w -> ~ N w.
  Notation tame := (tame L N).
  Lemma shape0_named e s w : shape0 e <> SNamed s w.
  Proof. destruct e; discriminate. Qed.
  Lemma not_blank : ~ wordlike (lit "_").
  Proof. intros (_ & _ & H). apply H. now left. Qed.
  Definition named_var (x y : nexpr) : Prop := exists a i b j n m, x = EVar a i /\ y = EVar b j /\ a_name a = Some n /\ a_name b = Some m /\ name_display n = name_display m.
  Lemma word_var x y n a i : tame x -> tame y -> x = EVar a i -> a_name a = Some n -> e_name y = None -> shape0 y = SWord (name_display n) -> False.
  Proof.
    intros Tx Ty -> Hn Hy E. inversion Tx as [| | | | | ? ? Ha HN | | |]; subst. unfold ann_fits in Ha. rewrite Hn in Ha. unfold name_fits in Ha. specialize (HN n Hn).
    destruct Ty; try discriminate; cbn [shape0] in E; injection E as E.
    - rewrite <- E in Ha. exact (not_blank Ha).
    - subst. eapply apart; eauto.
  Qed.
  Lemma shape_split x y : tame x -> tame y -> shape_of x = shape_of y -> (same_name (e_name x) (e_name y) /\ shape0 x = shape0 y) \/ named_var x y.
  Proof.
    intros Tx Ty E. unfold shape_of, name_shape in E. unfold e_name in *. destruct (a_name (e_ann x)) as [n |] eqn:En, (a_name (e_ann y)) as [m |] eqn:Em.
    - destruct x, y; try discriminate; try (left; split; [unfold same_name; cbn [option_map]; congruence | congruence]; fail).
      right. injection E as E. do 6 eexists. split; [reflexivity |]. split; [reflexivity |]. cbn in En, Em. eauto.
    - destruct x; try (exfalso; symmetry in E; exact (shape0_named _ _ _ E)). exfalso. eapply (word_var (EVar a index) y n a index); eauto.
    - destruct y; try (exfalso; exact (shape0_named _ _ _ E)). exfalso. eapply (word_var (EVar a index) x m a index); eauto.
    - left. split; [reflexivity | exact E].
  Qed.
  Lemma arg_words_inj n n' : Forall name_fits n -> Forall name_fits n' -> arg_words n = arg_words n' -> map name_display n = map name_display n'.
  Proof.
    assert (K : forall n, Forall name_fits n -> n <> [] -> map name_display n <> [[]]) by (intros [| x [| z l]] H Hn E; [congruence | | discriminate]; injection E as E; apply Forall_inv in H; now destruct H).
    intros H H' E. destruct n as [| x n], n' as [| x' n']; auto; cbn [arg_words] in E; exfalso; [symmetry in E |]; (eapply K; [| | exact E]; [assumption | discriminate]).
  Qed.
  Theorem shape_alike x : forall y, tame x -> tame y -> shape_of x = shape_of y -> alike x y.
  Proof.
    assert (HP : forall r r' : list (span * nexpr), Forall (fun x : span * nexpr => forall y, tame (snd x) -> tame y -> shape_of (snd x) = shape_of y -> alike (snd x) y) r ->
      Forall (fun x => tame (snd x)) r -> Forall (fun x => tame (snd x)) r' -> map (fun x => shape_of (snd x)) r = map (fun x => shape_of (snd x)) r' -> Forall2 (fun x y => alike (snd x) (snd y)) r r').
    { induction r as [| z r IH]; intros [| y r'] H T T' E; try discriminate; constructor; apply Forall_cons_iff in H as [H1 H2], T as [T1 T2], T' as [T1' T2']; injection E as E1 E2; auto. }
    assert (HL : forall r r' : list nexpr, Forall (fun x => forall y, tame x -> tame y -> shape_of x = shape_of y -> alike x y) r ->
      Forall tame r -> Forall tame r' -> map shape_of r = map shape_of r' -> Forall2 alike r r').
    { induction r as [| z r IH]; intros [| y r'] H T T' E; try discriminate; constructor; apply Forall_cons_iff in H as [H1 H2], T as [T1 T2], T' as [T1' T2']; injection E as E1 E2; auto. }
    induction x using nexpr_ind'; intros y Tx Ty E; (destruct (shape_split _ _ Tx Ty E) as [[En E0] | (b & j & b' & j' & n1 & n2 & E1 & E2 & H1 & H2 & H3)]; [| try discriminate E1]).
    all: try (injection E1 as -> ->; subst y; constructor; [unfold same_name; rewrite H1, H2; cbn; congruence | left; congruence]).
    all: inversion Ty; subst; try discriminate E0; inversion Tx; subst; cbn [shape0] in E0; fold (shape_of) in E0.
    all: change (a_name (e_ann ?z)) with (e_name z) in *.
    - now constructor.
    - injection E0 as E0. subst. exfalso. now apply not_blank.
    - injection E0 as E0. subst. exfalso. now apply not_blank.
    - injection E0 as E0. subst. now constructor.
    - injection E0 as E1 E2. constructor; [exact En | now apply IHx | now apply HP].
    - injection E0 as E1 E2. constructor; [exact En | now apply IHx | now apply HP].
    - injection E0 as E1. constructor; [exact En | now apply IHx].
    - injection E0 as E1. constructor; [exact En |]. right. now apply dec_inj.
    - injection E0 as E1 E2. constructor; [exact En | now apply IHx | now apply HL].
    - injection E0 as E1 E2. constructor; [exact En | now apply arg_words_inj | now apply IHx].
    - injection E0 as E1 E2 E3. constructor; [exact En | exact E1 | now apply IHx1 | now apply IHx2].
  Qed.
  Theorem display_alike x y : tame x -> tame y -> display x = display y -> alike x y.
  Proof.
    intros Tx Ty E. apply shape_alike; [exact Tx | exact Ty |].
    pose proof (display_reads L N x Tx (S (weight x + weight y)) [] ltac:(lia) Logic.I) as R1. pose proof (display_reads L N y Ty (S (weight x + weight y)) [] ltac:(lia) Logic.I) as R2.
    rewrite E in R1. rewrite R1 in R2. now injection R2.
  Qed.
  (** And what is alike is written alike. *)
  Theorem alike_display x : forall y, alike x y -> display x = display y.
  Proof.
    assert (HN : forall p q, same_name (e_name p) (e_name q) -> (e_name p <> None -> (exists a i, p = EVar a i) <-> exists a i, q = EVar a i) -> expr_text p = expr_text q \/ (e_name p <> None /\ exists a i, p = EVar a i) -> display p = display q).
    { intros p q Hn Hv He. unfold display, named_text. unfold same_name in Hn. destruct (e_name p) as [n |], (e_name q) as [m |]; try discriminate; [| destruct He as [He | [He _]]; [exact He | congruence]].
      injection Hn as Hn. specialize (Hv ltac:(discriminate)). rewrite Hn.
      destruct p; destruct q; try reflexivity; try (destruct He as [-> | (_ & a' & i' & [=])]; reflexivity); exfalso.
      all: first [destruct (proj1 Hv ltac:(eauto)) as (a1 & i1 & [=]) | destruct (proj2 Hv ltac:(eauto)) as (a1 & i1 & [=])]. }
    assert (Hm : forall n n', map name_display n = map name_display n' -> more_names n = more_names n').
    { induction n as [| z n IH]; intros [| z' n'] E; try discriminate; [reflexivity |]. injection E as E1 E2. cbn [more_names]. now rewrite E1, (IH n' E2). }
    induction x using nexpr_ind'; intros y A; inversion A; subst; (apply HN; [cbn; assumption | intros _; split; intros (b & j & [=]); eauto |]).
    - now left.
    - now left.
    - left. rewrite !cat_text. erewrite IHx by eassumption. do 3 f_equal. match goal with K : Forall2 _ r _ |- _ => rename K into KK end. clear - KK H. induction KK as [| u v r r' Hu KK IH]; [reflexivity |]. apply Forall_cons_iff in H as [H1 H2]. unfold tail_text. cbn [flat_map]. rewrite (H1 _ Hu). f_equal. now apply IH.
    - left. rewrite !alt_text. erewrite IHx by eassumption. do 3 f_equal. match goal with K : Forall2 _ r _ |- _ => rename K into KK end. clear - KK H. induction KK as [| u v r r' Hu KK IH]; [reflexivity |]. apply Forall_cons_iff in H as [H1 H2]. unfold tail_text. cbn [flat_map]. rewrite (H1 _ Hu). f_equal. now apply IH.
    - left. cbn [expr_text]. fold (display x). erewrite IHx by eassumption. reflexivity.
    - match goal with K : _ <> None \/ _ |- _ => rename K into KK end. destruct KK as [K | ->]; [right; split; [exact K | eauto] | now left].
    - left. rewrite !call_text. erewrite IHx by eassumption. do 3 f_equal. match goal with K : Forall2 _ l _ |- _ => rename K into KK end. clear - KK H. induction KK as [| u v r r' Hu KK IH]; [reflexivity |]. apply Forall_cons_iff in H as [H1 H2]. unfold tail_text. cbn [flat_map]. rewrite (H1 _ Hu). f_equal. now apply IH.
    - left. cbn [expr_text]. fold (display x). erewrite IHx by eassumption. do 2 f_equal. match goal with K : map _ _ = map _ _ |- _ => rename K into KK end. destruct n as [| z n], n' as [| z' n']; try discriminate KK; [reflexivity |]. injection KK as K1 K2. cbn [names_text]. now rewrite K1, (Hm _ _ K2).
    - left. cbn [expr_text]. fold (display x1). fold (display x2). erewrite IHx1, IHx2 by eassumption. match goal with K : name_display _ = name_display _ |- _ => now rewrite K end.
  Qed.
End Tell.
