(** * WriteText: the text of the program of a grammar. *)
From Coq Require Import String.
From Verif Require Export WriteConv SpecSource PropNibble.
From Coq Require Import List Lia.
Import ListNotations.
Open Scope list_scope.

Definition spell_char (c : char) : rstr := if N.eqb c 34 then [92; 34]%N else if N.eqb c 92 then [92; 92]%N else if N.eqb c 13 then [92; 114]%N else [c].
Fixpoint spell (t : token) : rstr :=
  match t with
  | TkIdent i => id_sym i ++ [32%N]
  | TkStr v _ => lit """" ++ flat_map spell_char v ++ lit """" ++ [32%N]
  | TkPunct c _ => [c; 32%N]
  | TkGroup _ ts => lit "(" ++ flat_map spell ts ++ lit ")" ++ [32%N]
  | TkOther _ => []
  end.
Definition plain_ident (i : ident) : Prop := id_raw i = false /\ exists c a, id_sym i = c :: a /\ first_char c /\ Forall word_char a.
Inductive spellable : token -> Prop :=
| sp_ident i : plain_ident i -> spellable (TkIdent i)
| sp_str v sp : spellable (TkStr v sp)
| sp_punct c sp : In c (lit "~!@#$%^&*-=+|;:,<.>/?") -> spellable (TkPunct c sp)
| sp_group sp ts : Forall spellable ts -> spellable (TkGroup sp ts).
Lemma spell_quoted v : quoted_chars v (flat_map spell_char v).
Proof.
  induction v as [| c v IH]; [constructor |]. cbn [flat_map]. constructor; [| exact IH]. unfold spell_char.
  destruct (N.eqb_spec c 34) as [-> |]; [apply lit_escape; [constructor; cbn; auto | left; lia] |]. destruct (N.eqb_spec c 92) as [-> |]; [apply lit_escape; [constructor; cbn; auto 10 | left; lia] |].
  destruct (N.eqb_spec c 13) as [-> |]; [apply lit_escape; [constructor; cbn; auto 10 | left; lia] |]. now constructor.
Qed.
Lemma space_32 : space 32%N.
Proof. left. cbn. auto 10. Qed.
Lemma no_next_space (P : char -> Prop) s : ~ P 32%N -> no_next P (32%N :: s).
Proof. intros H c s' [= <- _]. exact H. Qed.
Lemma spell_source t : spellable t -> forall ts s after, source ts s after -> source (t :: ts) (spell t ++ s) after.
Proof.
  induction t as [i | v sp | c sp | sp l IH | sp] using token_ind'; intros Hs ts s after H; inversion Hs as [? Hi | | ? ? Hc | ? ? Hl]; subst; cbn [spell].
  - destruct Hi as [Hr (c & a & E & Hc & Ha)]. destruct i as [raw sym sp]. cbn [id_raw id_sym] in *. subst. rewrite <- app_assoc. cbn [app]. apply src_ident; [exact Hc | exact Ha | | apply src_space; [apply space_32 | exact H]].
    cbn [app]. apply no_next_space. unfold word_char, letter. intros [K | K]; [lia |]. cbn in K. intuition discriminate.
  - rewrite <- !app_assoc. cbn [app]. apply (src_str v _ sp ts (32%N :: s)); [apply spell_quoted | | apply src_space; [apply space_32 | exact H]]. cbn [app]. apply no_next_space. unfold first_char, letter. lia.
  - cbn [app]. apply src_punct; [exact Hc | | apply src_space; [apply space_32 | exact H]]. intros _. cbn [app]. apply no_next_space. cbn. intuition discriminate.
  - rewrite <- !app_assoc. cbn [app]. apply (src_group l _ sp ts (32%N :: s)); [| apply src_space; [apply space_32 | exact H]].
    generalize (lit ")" ++ (32%N :: s) ++ after). intros aft. clear H Hs. induction Hl as [| x l Hx _ IHl]; [constructor |]. inversion IH as [| ? ? Ix Il]; subst. cbn [flat_map]. apply Ix; [exact Hx | exact (IHl Il)].
Qed.
Lemma spells_source ts after : Forall spellable ts -> source ts (flat_map spell ts) after.
Proof. induction 1 as [| t ts Ht _ IH]; [constructor |]. cbn [flat_map]. now apply spell_source. Qed.

Lemma vs_plain d sp : plain_ident (Ident false (vs d) sp).
Proof. split; [reflexivity |]. exists 120%N, (repeat 120%N d). split; [reflexivity |]. split; [left; left; lia |]. apply Forall_forall. intros x Hx. apply repeat_spec in Hx as ->. left. left. lia. Qed.
Lemma ls_plain d sp : plain_ident (Ident false (ls d) sp).
Proof. split; [reflexivity |]. exists 102%N, (repeat 102%N d). split; [reflexivity |]. split; [left; left; lia |]. apply Forall_forall. intros x Hx. apply repeat_spec in Hx as ->. left. left. lia. Qed.
Lemma cat1_tokens n : to_tokens (cat1 n) = to_tokens n.
Proof. cbn [cat1 to_tokens pairs_tokens flat_map]. now rewrite !app_nil_r. Qed.
Lemma puncts_spell s l : In (chr s) (lit "~!@#$%^&*-=+|;:,<.>/?") -> Forall (fun n => Forall spellable (to_tokens n)) l -> Forall spellable (pairs_tokens to_tokens s (puncts l)).
Proof.
  intros Hs H. induction H as [| x l Hx Hl IH]; [constructor |]. cbn [puncts pairs_tokens]. apply Forall_app. split; [exact Hx |]. apply Forall_app. split; [| exact IH]. destruct l; [constructor |]. constructor; [| constructor]. now constructor.
Qed.
Lemma term_spell g : forall k d, Forall spellable (to_tokens (term k d g)).
Proof.
  induction g as [| s | l IH | l IH | b IH | j] using gram_ind'; intros k d; cbn [term].
  - constructor; [| constructor]. constructor. split; [reflexivity |]. exists 95%N, []. split; [reflexivity |]. split; [now right | constructor].
  - constructor; [constructor | constructor].
  - rewrite Forall_forall in IH. cbn [to_tokens pairs_tokens]. constructor; [| constructor]. constructor. rewrite !app_nil_r. apply puncts_spell; [cbn; auto 30 |]. apply Forall_map, terms_all. intros k' x Hx. cbn [to_tokens flat_map]. rewrite app_nil_r. auto.
  - rewrite Forall_forall in IH. cbn [to_tokens]. constructor; [| constructor]. constructor. apply puncts_spell; [cbn; auto 30 |]. apply Forall_map, terms_all. intros k' x Hx. cbn [to_tokens]. rewrite app_nil_r, cat1_tokens. auto.
  - cbn [to_tokens pairs_tokens map]. constructor; [constructor; cbn; auto 30 |]. constructor; [| constructor]. constructor. constructor; [constructor; cbn; auto 30 |]. constructor; [constructor; apply vs_plain |]. constructor; [constructor; cbn; auto 30 |].
    rewrite cat1_tokens, !app_nil_r. apply Forall_app. split; [apply IH |]. constructor; [constructor; cbn; auto 30 |]. constructor; [constructor; apply ls_plain | constructor].
  - cbn [to_tokens]. constructor; [constructor; apply vs_plain | constructor].
Qed.
Lemma program_spell g : Forall spellable (stmt_tokens (program g)).
Proof.
  cbn [program stmt_tokens to_tokens pairs_tokens]. constructor; [constructor; split; [reflexivity |]; exists 109%N, (lit "atch"); split; [reflexivity |]; split; [left; left; lia |]; cbn; repeat constructor; unfold word_char, letter; lia |].
  rewrite cat1_tokens, !app_nil_r. apply Forall_app. split; [apply term_spell |]. constructor; [constructor; cbn; auto 30 | constructor].
Qed.

(** Its spans are the default. *)
Lemma pairs_un s l : Forall (fun n => un (to_tokens n) = to_tokens n) l -> un (pairs_tokens to_tokens s (puncts l)) = pairs_tokens to_tokens s (puncts l).
Proof. induction 1 as [| x l Hx Hl IH]; [reflexivity |]. cbn [puncts pairs_tokens]. rewrite !map_app, Hx, IH. f_equal. f_equal. destruct l; reflexivity. Qed.
Lemma term_un g : forall k d, un (to_tokens (term k d g)) = to_tokens (term k d g).
Proof.
  induction g as [| s | l IH | l IH | b IH | j] using gram_ind'; intros k d; cbn [term]; try reflexivity.
  - rewrite Forall_forall in IH. cbn [to_tokens pairs_tokens map unspan_token]. do 2 f_equal. rewrite !app_nil_r. apply pairs_un, Forall_map, terms_all. intros k' x Hx. cbn [to_tokens flat_map]. rewrite app_nil_r. auto.
  - rewrite Forall_forall in IH. cbn [to_tokens pairs_tokens map unspan_token]. do 2 f_equal. apply pairs_un, Forall_map, terms_all. intros k' x Hx. cbn [to_tokens]. rewrite app_nil_r, cat1_tokens. auto.
  - cbn [to_tokens pairs_tokens map unspan_token app]. rewrite cat1_tokens, !app_nil_r, map_app, IH. reflexivity.
Qed.
Lemma program_un g : un (stmt_tokens (program g)) = stmt_tokens (program g).
Proof. cbn [program stmt_tokens to_tokens pairs_tokens map]. rewrite cat1_tokens, !app_nil_r, map_app, term_un. reflexivity. Qed.

Definition program_of (g : gram) : rstr := flat_map spell (stmt_tokens (program g)).
Theorem program_read g : proper g = true -> exists s, chomp_reads (program_of g) = Some s /\ unspan_stmt s = program g.
Proof.
  intros Hp. pose proof (program_wf g Hp) as Hw. destruct (C97_complete (program_of g) (program g) Hw (spells_source _ _ (program_spell g))) as (s & Hr & F). exists s. split; [exact Hr |].
  pose proof (C97_sound _ _ Hr) as [Hws _]. apply sames_unspan in F. rewrite program_un in F. pose proof (un_program (stmt_tokens s)) as U. rewrite <- F in U.
  rewrite (proj2 (C53_parse_print _ _) (conj Hw eq_refl)), (proj2 (C53_parse_print _ _) (conj Hws eq_refl)) in U. cbn [option_map] in U. congruence.
Qed.
