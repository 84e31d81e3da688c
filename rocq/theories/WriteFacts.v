(** * WriteFacts: a program for every grammar. *)
From Coq Require Import String.
From Verif Require Export LabelFacts PropRegular PropCase SourceRespan PropSource SpecCase.
From Coq Require Import List Lia.
Import ListNotations.
Open Scope list_scope.

(** Concatenations and alternations have two parts or more. *)
Fixpoint proper (g : gram) : bool :=
  match g with
  | GCat l | GAlt l => Nat.leb 2 (length l) && forallb proper l
  | GFix b => proper b
  | _ => true
  end.
Fixpoint nfixes (g : gram) : nat :=
  match g with
  | GCat l | GAlt l => list_sum (map nfixes l)
  | GFix b => S (nfixes b)
  | _ => 0
  end.

Definition vs (d : nat) : rstr := repeat 120%N (S d).
Definition ls (k : nat) : rstr := repeat 102%N (S k).
Definition cat1 (n : node) : node := NCatP [(NCall [n], None)].
Fixpoint puncts (l : list node) : list (node * option span) :=
  match l with
  | [] => []
  | x :: l' => (x, match l' with [] => None | _ => Some 0%N end) :: puncts l'
  end.
Section Terms.
  Context (f : nat -> gram -> node).
  Fixpoint terms (k : nat) (l : list gram) : list node :=
    match l with [] => [] | x :: l' => f k x :: terms (k + nfixes x) l' end.
End Terms.
Fixpoint term (k d : nat) (g : gram) : node :=
  match g with
  | GEps => NEpsilon 0%N
  | GLit s => NLiteral s 0%N
  | GVar i => NIdent (Ident false (vs (d - 1 - i)) 0%N)
  | GCat l => NParen 0%N (NAltP [(NLabelled (NCatP (puncts (map (fun n => NCall [n]) (terms (fun k x => term k d x) k l)))) None, None)])
  | GAlt l => NParen 0%N (NAltP (puncts (map (fun n => NLabelled (cat1 n) None) (terms (fun k x => term k d x) k l))))
  | GFix b => NFix 0%N (NParen 0%N (NLambda 0%N [Ident false (vs d) 0%N] 0%N (NAltP [(NLabelled (cat1 (term (S k) (S d) b)) (Some (0%N, Ident false (ls k) 0%N)), None)])))
  end.
Definition program (g : gram) : stmt := SGoal 0%N (NAltP [(NLabelled (cat1 (term 0 0 g)) None, None)]) 0%N.

(** ** It is a program *)
Lemma puncts_ok P l : l <> [] -> Forall P l -> punctuated P (puncts l).
Proof.
  intros Hn H. induction H as [| x l Hx Hl IH]; [congruence |]. cbn [puncts]. destruct l as [| y l]; [now constructor |]. constructor; [exact Hx |]. now apply IH.
Qed.
Lemma vs_word d : parameter (Ident false (vs d) 0%N) /\ ~ underscore (Ident false (vs d) 0%N).
Proof.
  split.
  - intros _ s Hs E. cbn [id_sym] in E. assert (X : existsb (fun s => match lit s with c :: _ => N.eqb c 120 | [] => false end) reserved = true).
    { apply existsb_exists. exists s. split; [exact Hs |]. rewrite <- E. reflexivity. }
    vm_compute in X. discriminate X.
  - intros [_ E]. cbn [id_sym] in E. discriminate E.
Qed.
Lemma terms_all f k l (P : node -> Prop) : (forall k x, In x l -> P (f k x)) -> Forall P (terms f k l).
Proof. revert k. induction l as [| x l IH]; intros k H; cbn [terms]; constructor; [apply H; now left |]. apply IH. intros k' y Hy. apply H. now right. Qed.
Lemma terms_length f k l : length (terms f k l) = length l.
Proof. revert k. induction l; intros k; cbn; auto. Qed.
Lemma wf_cat1 n : wf LvTerm n -> wf LvCat (cat1 n).
Proof. intros H. constructor. constructor. constructor; [exact H | constructor]. Qed.
Lemma term_wf g : forall k d, proper g = true -> wf LvTerm (term k d g).
Proof.
  induction g as [| s | l IH | l IH | b IH | i] using gram_ind'; intros k d H; cbn [term proper] in *.
  - constructor.
  - constructor.
  - apply andb_prop in H as [H1 H2]. rewrite forallb_forall in H2. rewrite Forall_forall in IH. constructor. constructor. constructor. constructor. constructor. constructor. apply puncts_ok.
    + destruct l; [discriminate H1 |]. discriminate.
    + apply Forall_map, terms_all. intros k' x Hx. constructor; [auto | constructor].
  - apply andb_prop in H as [H1 H2]. rewrite forallb_forall in H2. rewrite Forall_forall in IH. constructor. constructor. constructor. apply puncts_ok.
    + destruct l; [discriminate H1 |]. discriminate.
    + apply Forall_map, terms_all. intros k' x Hx. constructor. apply wf_cat1. auto.
  - constructor. constructor. constructor; [apply vs_word | constructor |]. constructor. constructor. constructor. apply wf_cat1. auto.
  - constructor. apply vs_word.
Qed.
Lemma program_wf g : proper g = true -> wf_stmt (program g).
Proof. intros H. constructor. constructor. constructor. constructor. constructor. apply wf_cat1. now apply term_wf. Qed.
Definition nice (i : ident) : Prop := clean (id_sym i) /\ speakable (id_sym i).
Lemma rep_nice c n : (97 <= c <= 122)%N -> c <> 97%N -> c <> 98%N -> c <> 99%N -> c <> 108%N -> c <> 112%N -> (c = 102%N \/ c = 120%N) -> clean (repeat c (S n)) /\ speakable (repeat c (S n)).
Proof.
  intros Hc _ _ _ _ _ Hd. assert (E : letters (repeat c (S n)) = repeat c (S n)).
  { unfold letters. generalize (S n). intros m. induction m as [| m IH]; [reflexivity |]. cbn [repeat filter]. destruct (N.eqb_spec c 95); [lia |]. cbn [negb map]. rewrite IH. f_equal. unfold lower. destruct (N.leb_spec 65 c), (N.leb_spec c 90); try reflexivity; lia. }
  assert (R : forall x, In x (repeat c (S n)) -> x = c) by (intros x; apply repeat_spec). split; (split; rewrite E).
  - intros u x Ex. assert (x = c) as -> by (apply R; rewrite Ex; apply in_app_iff; right; now left). lia.
  - intros Hi. assert (X : forall w, repeat c (S n) = w -> forallb (N.eqb c) w = true). { intros w <-. apply forallb_forall. intros x Hx. apply R in Hx as ->. apply N.eqb_refl. }
    cbn [In] in Hi. destruct Hd as [-> | ->]; repeat (destruct Hi as [Hi | Hi]; [symmetry in Hi; apply X in Hi; vm_compute in Hi; discriminate Hi |]); exact Hi.
  - exists c, (repeat c n). split; [reflexivity | exact Hc].
  - apply Forall_forall. intros x Hx. apply R in Hx as ->. now left.
Qed.
Lemma term_idents g : forall k d i, In i (node_idents (term k d g)) -> nice i.
Proof.
  assert (V : forall d sp, nice (Ident false (vs d) sp)) by (intros d sp; apply rep_nice; try lia; auto).
  assert (Lb : forall d sp, nice (Ident false (ls d) sp)) by (intros d sp; apply rep_nice; try lia; auto).
  assert (P : forall l i, In i (flat_map (fun x : node * option span => node_idents (fst x)) (puncts l)) -> exists n, In n l /\ In i (node_idents n)).
  { induction l as [| x l IH]; intros i H; [destruct H |]. cbn [puncts flat_map fst] in H. apply in_app_iff in H as [H | H]; [exists x; split; [now left | exact H] |]. apply IH in H as (n & Hn & Hi). exists n. split; [now right | exact Hi]. }
  assert (T : forall f l, (forall k x i, In x l -> In i (node_idents (f k x)) -> nice i) -> forall k n i, In n (terms f k l) -> In i (node_idents n) -> nice i).
  { induction l as [| x l IH]; intros H k n i Hn Hi; [destruct Hn |]. cbn [terms] in Hn. destruct Hn as [<- | Hn]; [eapply H; [now left | exact Hi] |]. eapply IH; eauto. intros k' y j Hy. apply H. now right. }
  induction g as [| s | l IH | l IH | b IH | j] using gram_ind'; intros k d i H; cbn [term node_idents flat_map fst snd] in H.
  - destruct H.
  - destruct H.
  - rewrite Forall_forall in IH. rewrite !app_nil_r in H. apply P in H as (n & Hn & Hi). apply in_map_iff in Hn as (m & <- & Hm). cbn [node_idents flat_map] in Hi. rewrite app_nil_r in Hi. eapply T; [| exact Hm | exact Hi]. eauto.
  - rewrite Forall_forall in IH. apply P in H as (n & Hn & Hi). apply in_map_iff in Hn as (m & <- & Hm). cbn [node_idents flat_map cat1 fst] in Hi. rewrite !app_nil_r in Hi. eapply T; [| exact Hm | exact Hi]. eauto.
  - cbn [app] in H. destruct H as [<- | H]; [apply V |]. rewrite app_nil_r in H. apply in_app_iff in H as [H | [<- | []]]; [| apply Lb]. cbn [cat1 node_idents flat_map fst] in H. rewrite !app_nil_r in H. eauto.
  - destruct H as [<- | []]. apply V.
Qed.
