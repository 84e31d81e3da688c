(** * PropWrite: labels keep fixed points apart, and every typable grammar has a
    program whose parser is right (C100).

    Vocabulary: [typecheck] (Infer), [compiles], [parses] (PropGen: the type
    checker accepts, the generator produces the table; what the generated
    parser returns), [chomp_main] (AutoMain: src/main.rs on a text),
    [chomp_reads] (the syntax tree read), [heck] (Source: the case conversions),
    [well_formed], [rparses] (SpecRust, Rust: rules and meaning of the emitted
    items), [typed] (SpecTyping), [language] (SpecLang), [stands_for] (PropMain),
    [enames e] (LabelFacts: for each fixed point of e, from the outside in and
    from left to right, the name its body gets: of the name of its function,
    the label or name of the body, and the name of the fixed point, the first
    of the highest rank), [differ] (LabelFacts: pairwise different). *)
From Coq Require Import String.
From Verif Require Import RustMain SpecRust PropRust InferMore PropTyping PropGen ReduceMore PropReduce.
From Verif Require Export WriteText SpecRegular.
From Coq Require Import List Lia.
Import ListNotations.
Open Scope list_scope.

(** ** Labels *)
(** If the bodies of the fixed points have different names, no two fixed points
    are generated as one by mistake... *)
Theorem C100_labels : forall cs e r tab root g, compiles cs e r tab root -> gram_of e = Some g -> differ (enames (e_name e) e) ->
  forall s, (exists v, parses tab root s (Ok v)) <-> language g s.
Proof.
  intros cs e r tab root g H Hg Hd. eapply C22_decides_language; [exact H | exact Hg |]. destruct H as [Ht _].
  destruct (typecheck_typed e r Ht) as (g' & t & Hg' & Hr & _). rewrite Hg in Hg'. injection Hg' as <-. apply differ_sharing.
  - rewrite Hr. exact (C63_accepted_closed _ _ _ Ht Hg).
  - unfold typecheck in Ht. now rewrite (infer_names _ _ _ _ _ Ht).
Qed.

(** ** Programs *)
(** Parts of one part are that part. *)
Fixpoint flat (g : gram) : gram :=
  match g with
  | GCat l => match map flat l with [x] => x | l' => GCat l' end
  | GAlt l => match map flat l with [x] => x | l' => GAlt l' end
  | GFix b => GFix (flat b)
  | _ => g
  end.
Lemma flat_typed :
  (forall G g t, typed G g t -> typed G (flat g) t /\ proper (flat g) = true)
  /\ (forall G t l t', typed_seq G t l t' -> typed_seq G t (map flat l) t' /\ forallb proper (map flat l) = true)
  /\ (forall G t l t', typed_branches G t l t' -> typed_branches G t (map flat l) t' /\ forallb proper (map flat l) = true).
Proof.
  apply typed_mutind; cbn [flat map forallb].
  - intros. split; [constructor | reflexivity].
  - intros. split; [constructor | reflexivity].
  - intros. split; [now constructor | reflexivity].
  - intros G g gs t1 t H [I1 I2] Hn Hs [J1 J2]. destruct gs as [| g' gs]; [inversion Hs; subst; auto |]. cbn [map] in *. split; [econstructor; eassumption |]. cbn [proper length Nat.leb forallb andb]. now rewrite I2.
  - intros G g gs t1 t H [I1 I2] Hs [J1 J2]. destruct gs as [| g' gs]; [inversion Hs; subst; auto |]. cbn [map] in *. split; [econstructor; eassumption |]. cbn [proper length Nat.leb forallb andb]. now rewrite I2.
  - intros G g t t' H [I1 I2] He. split; [econstructor; eassumption | exact I2].
  - intros. split; [constructor | reflexivity].
  - intros G t g gs t1 t' H [I1 I2] Hs H' [J1 J2]. split; [econstructor; eassumption | now rewrite I2].
  - intros. split; [constructor | reflexivity].
  - intros G t g gs t1 t' H [I1 I2] Hs H' [J1 J2]. split; [econstructor; eassumption | now rewrite I2].
Qed.
Lemma flat_lang g : forall env w, lang_of env (flat g) w <-> lang_of env g w.
Proof.
  assert (E : forall (g : gram) E F, (forall i w, nth i E lang_empty w <-> nth i F lang_empty w) -> forall w, lang_of E g w -> lang_of F g w).
  { intros g' E F H w. apply lang_of_mono. intros i u. apply H. }
  induction g as [| s | l IH | l IH | b IH | i] using gram_ind'; intros env w; cbn [flat]; try reflexivity.
  - assert (K : forall u, lang_cats env (map flat l) u <-> lang_cats env l u).
    { induction IH as [| x l Hx _ IHl]; intros u; cbn [map lang_cats]; [reflexivity |]. unfold lang_cat. split; intros (a & b & -> & Ha & Hb); exists a, b; (split; [reflexivity |]; split; [now apply Hx | now apply IHl]). }
    rewrite lang_of_cat, <- (K w). destruct (map flat l) as [| x [| y m]]; rewrite ?lang_of_cat; try reflexivity. cbn [lang_cats]. unfold lang_cat. split; [intros H; exists w, []; rewrite app_nil_r; auto | intros (u & v & -> & Hu & ->); now rewrite app_nil_r].
  - assert (K : forall u, lang_alts env (map flat l) u <-> lang_alts env l u).
    { induction IH as [| x l Hx _ IHl]; intros u; cbn [map lang_alts]; [reflexivity |]. rewrite (Hx env u), (IHl u). reflexivity. }
    rewrite lang_of_alt, <- (K w). destruct (map flat l) as [| x [| y m]]; rewrite ?lang_of_alt; try reflexivity. cbn [lang_alts]. unfold lang_empty. tauto.
  - rewrite !lang_of_fix. assert (K : forall n u, approx env (flat b) n u <-> approx env b n u).
    { induction n as [| n IHn]; intros u; [reflexivity |]. rewrite !approx_S, IH. split; apply E; intros [| i] v; cbn [nth]; try reflexivity; [apply IHn | symmetry; apply IHn]. }
    split; intros [n Hn]; exists n; now apply K.
Qed.

Lemma labs_differ k n : forall l, labs k n l -> differ l.
Proof.
  unfold labs, differ. revert k. induction n as [| n IH]; intros k l H; cbn [seq] in H; inversion H as [| ? nm ? l' Hk Hl]; subst; constructor; [| eapply IH; exact Hl].
  apply Forall_forall. intros x Hx. destruct Hk as [sp ->]. assert (exists j, k < j /\ is_lab j x) as (j & Hj & sp' & ->).
  { clear - Hl Hx. assert (Q : forall j, In j (seq (S k) n) -> k < j) by (intros j Hj; apply in_seq in Hj; lia). revert Q Hx. induction Hl as [| a b u v Hab _ IHl]; intros Q Hx; [destruct Hx |]. destruct Hx as [<- | Hx]; [exists a; split; [apply Q; now left | exact Hab] | apply IHl; [intros j Hj; apply Q; now right | exact Hx]]. }
  cbn [oname_eqb]. unfold name_eqb. cbn [n_content new_label content_eqb]. unfold ident_eqb. cbn [id_raw id_sym Bool.eqb andb]. destruct (rstr_eqb (ls k) (ls j)) eqn:E; [| reflexivity]. exfalso. apply rstr_eqb_eq in E. apply (f_equal (@length char)) in E. unfold ls in E. rewrite !repeat_length in E. lia.
Qed.
Lemma program_convert join g s : closed_below 0 g -> proper g = true -> unspan_stmt s = program g ->
  exists e, convert_program join s = Ok e /\ gram_of e = Some g /\ differ (enames (e_name e) e).
Proof.
  intros Hc Hp E. destruct s as [k n semi |]; [| discriminate E]. cbn [unspan_stmt program] in E. injection E as E.
  assert (G : gives join n [] g 0). { eapply gives_alt1; [exact E |]. intros n' E'. eapply gives_labelled; [exact E' |]. intros n'' E''. eapply gives_cat1; [exact E'' |]. intros m Em. eapply gives_term; [exact Hc | exact Hp | constructor | exact Em]. }
  destruct G as (e & He & Hg & Hn). eexists. split; [unfold convert_program; cbn [convert_stmt]; unfold bind, ret; rewrite He; reflexivity |].
  split; [now rewrite set_ann_gram |]. rewrite set_ann_names. eapply labs_differ. apply Hn.
Qed.
Lemma lgram_evaluated : forall e g, lgram e = Some g -> evaluated e.
Proof.
  fix P 1. assert (Ls : forall l m, each lgram l = Some m -> (fix go l := match l with [] => True | x :: l' => evaluated x /\ go l' end) l).
  { induction l as [| x l IH]; intros m H; [exact Logic.I |]. cbn [each] in H. destruct (lgram x) as [y |] eqn:Ex; [| discriminate H]. destruct (each lgram l) as [m' |] eqn:El; [| discriminate H]. split; [exact (P x y Ex) | exact (IH m' eq_refl)]. }
  intros e g H. destruct e; cbn [lgram] in H; try discriminate H; try exact Logic.I.
  - destruct (each lgram l) eqn:E; [| discriminate H]. exact (Ls l _ E).
  - destruct (each lgram l) eqn:E; [| discriminate H]. exact (Ls l _ E).
  - destruct e; try discriminate H. destruct (lgram e) eqn:E; [| discriminate H]. split; [exact Logic.I | exact (P e _ E)].
Qed.

(** Every typable grammar is the grammar of a program... *)
Theorem C100_written : forall g t, typed [] g t -> exists text s g', chomp_reads text = Some s /\ stands_for s g' /\ (forall w, language g' w <-> language g w)
  /\ forall join, exists fuel, forall fuel', fuel <= fuel' -> exists c, chomp_main join heck fuel' text = Ok c /\ well_formed (code_items c)
    /\ (forall input, exists x, rparses (code_items c) (TnIdent (lit "Ast")) input x)
    /\ (forall input, (exists v, rparses (code_items c) (TnIdent (lit "Ast")) input (Ok v)) <-> language g input)
    /\ (forall input v, rparses (code_items c) (TnIdent (lit "Ast")) input (Ok v) -> rprint (code_items c) v = Some input).
Proof.
  intros g0 t Ht0. destruct (proj1 flat_typed [] g0 t Ht0) as [Ht Hp]. pose proof (flat_lang g0) as Hl. set (g := flat g0) in *. clearbody g.
  destruct (program_read g Hp) as (s & Hr & Hu). exists (program_of g), s, g. split; [exact Hr |].
  assert (Hts : exists ts, text_tokens (program_of g) = Some ts /\ parse_program ts = Some s) by (unfold chomp_reads in Hr; destruct (text_tokens (program_of g)); [eauto | discriminate Hr]).
  destruct Hts as (ts & Etx & Ep). pose proof Ep as Ep'. apply C53_parse_print in Ep' as [Hw ->].
  pose proof (proj1 typed_closed _ _ _ Ht) as Hcl. cbn [length] in Hcl.
  assert (Hs : stands_for s g).
  { destruct (program_convert no_join g s Hcl Hp Hu) as (e & Ec & Hg & _). exists (erase e), (erase e). split; [apply (C47_scoping no_join s _ Hw); eauto |]. split; [constructor |]. now rewrite <- gram_of_lgram. }
  split; [exact Hs |]. split; [intros w; apply Hl |]. intros join.
  assert (Hn : forall i, In i (stmt_idents s) -> nice i).
  { intros i Hi. assert (Hi' : In (unspan_ident i) (stmt_idents (program g))) by (rewrite <- Hu, unspan_stmt_idents; now apply in_map). cbn [program stmt_idents node_idents flat_map fst cat1] in Hi'. rewrite !app_nil_r in Hi'. apply term_idents in Hi'. exact Hi'. }
  destruct (C95_compiles join s g t Hw Hs Ht (fun i Hi => proj2 (Hn i Hi))) as [fuel Hf]. exists fuel. intros fuel' Hle. destruct (Hf fuel' Hle) as [c Hc]. exists c.
  split; [unfold chomp_main; now rewrite Etx |]. pose proof (C95_well_formed _ _ _ _ _ Ep Hc (fun i Hi => proj1 (Hn i Hi))) as W. split; [exact W |].
  destruct (chomp_names _ _ _ _ _ _ Ep Hc) as (e & v & r & b & root & Ec & Er & Ef & He & _). destruct c as [[tab rt] out]. cbn [fst] in Ef. injection Ef as -> ->.
  destruct (program_convert join g s Hcl Hp Hu) as (e' & Ec' & Hg & Hd). rewrite Ec in Ec'. injection Ec' as <-.
  destruct (evaluated_reduce e) as [m Hm]; [rewrite gram_of_lgram in Hg; eapply lgram_evaluated; exact Hg |].
  assert (v = e) as ->. { pose proof (mono_ok m (max m fuel') e e (Nat.le_max_l _ _) Hm). pose proof (mono_ok fuel' (max m fuel') e v (Nat.le_max_r _ _) Er). congruence. }
  assert (Hsh : sharing_ok r).
  { destruct He as [Et _]. destruct (typecheck_typed e r Et) as (g' & t' & Hg' & Hrr & _). rewrite Hg in Hg'. injection Hg' as <-. apply differ_sharing; [now rewrite Hrr |]. unfold typecheck in Et. now rewrite (infer_names _ _ _ _ _ Et). }
  destruct (C54_sound _ _ _ _ _ _ _ Hc) as (_ & _ & _ & _ & _ & _ & _ & _ & Hret & _).
  split; [| split].
  - intros input. destruct (Hret input) as [x Hx]. destruct (C94_runs _ _ _ _ _ _ _ _ _ _ He W Hx) as (y & Hy & _). eauto.
  - intros input. rewrite (C94_decides _ _ _ _ _ _ _ _ _ He W Hg Hsh input). apply Hl.
  - intros input w Hw'. exact (C94_prints _ _ _ _ _ _ _ _ _ _ He W Hw').
Qed.

(** ... and so is every finite automaton. *)
Corollary C100_regular : forall A q, dfa_ok A -> q < states A -> exists text, forall join, exists fuel, forall fuel', fuel <= fuel' ->
  exists c, chomp_main join heck fuel' text = Ok c /\ well_formed (code_items c)
    /\ forall input, (exists v, rparses (code_items c) (TnIdent (lit "Ast")) input (Ok v)) <-> accepts A q input.
Proof.
  intros A q HA Hq. destruct (C98_regular A q HA Hq) as (e & g & [r Hr] & Hg & Hl). destruct (typecheck_typed e r Hr) as (g' & t & Hg' & _ & Ht & _). rewrite Hg in Hg'. injection Hg' as <-.
  destruct (C100_written g t Ht) as (text & s & g' & _ & _ & _ & H). exists text. intros join. destruct (H join) as [fuel Hf]. exists fuel. intros fuel' Hle. destruct (Hf fuel' Hle) as (c & Hc & W & _ & Hd & _).
  exists c. split; [exact Hc |]. split; [exact W |]. intros input. rewrite Hd. apply Hl.
Qed.
Print Assumptions C100_labels.
Print Assumptions C100_written.
Print Assumptions C100_regular.

(** The expression whose parser is wrong ([C30_sharing_refuted]) because two of
    its fixed points look alike: here each has a label, and the parser is
    right. *)
Definition labelled (s : string) (e : nexpr) : nexpr := set_name (Some (nlabel s)) e.
Definition ex_half (s1 s2 k1 k2 : string) : nexpr :=
  cat2 (L s1) (fix1 "a" (labelled k1 (alt2 (cat2 (L "x") (L s2)) (cat2 (L "q") (fix1 "i" (labelled k2 (alt2 (cat2 (L "1") (V 0)) (cat2 (L "2") (V 1))))))))).
Definition ex_labelled : nexpr := alt2 (ex_half "l" "p" "k" "m") (ex_half "r" "s" "n" "o").
Example C100_ex : exists r tab root g, compiles cs0 ex_labelled r tab root /\ gram_of ex_labelled = Some g /\ gram_of ex_share = Some g
  /\ differ (enames (e_name ex_labelled) ex_labelled) /\ ~ differ (enames (e_name ex_share) ex_share).
Proof.
  do 4 eexists. split; [split; [vm_compute; reflexivity | eexists; split; [vm_compute; reflexivity | reflexivity]] |]. split; [reflexivity |]. split; [reflexivity |]. split.
  - repeat constructor.
  - intros H. vm_compute in H. inversion H as [| ? ? H1 H2]; subst. inversion H1 as [| ? ? H3 H4]; subst. discriminate H3.
Qed.
(** A program for the grammar of that expression. *)
Example C100_ex_written : exists g, gram_of ex_share = Some g /\ exists text, forall join, exists fuel c, chomp_main join heck fuel text = Ok c
  /\ (exists v, rparses (code_items c) (TnIdent (lit "Ast")) (lit "rq2xs") (Ok v)) /\ ~ exists v, rparses (code_items c) (TnIdent (lit "Ast")) (lit "rq2xp") (Ok v).
Proof.
  destruct C30_sharing_refuted as (r & tab & root & g & Hc & Hg & _ & Hn & Hy & _). exists g. split; [exact Hg |]. destruct Hc as [Hc _]. destruct (typecheck_typed _ _ Hc) as (g' & t & Hg' & _ & Ht & _). rewrite Hg in Hg'. injection Hg' as <-.
  destruct (C100_written g t Ht) as (text & s & g' & _ & _ & _ & H). exists text. intros join. destruct (H join) as [fuel Hf]. destruct (Hf fuel (le_n _)) as (c & Hcc & _ & _ & Hd & _). exists fuel, c. split; [exact Hcc |]. rewrite !Hd. auto.
Qed.
(** The texts over a, b whose last character but one is a have a program. *)
Example C100_ex_regular : exists text, forall join, exists fuel c, chomp_main join heck fuel text = Ok c
  /\ forall input, (exists v, rparses (code_items c) (TnIdent (lit "Ast")) input (Ok v)) <-> (Forall (fun c => c = ex_a \/ c = ex_b) input /\ exists u c, input = u ++ [ex_a; c]).
Proof.
  destruct (C100_regular last_but_one 0 last_but_one_ok) as [text H]; [cbn; lia |]. exists text. intros join. destruct (H join) as [fuel Hf]. destruct (Hf fuel (le_n _)) as (c & Hc & _ & Hd). exists fuel, c. split; [exact Hc |]. intros input. rewrite Hd. apply last_but_one_lang.
Qed.
(** What the text looks like. *)
Example C100_ex_text : program_of (GFix (GAlt [GCat [GLit (lit "a"); GVar 0]; GEps])) = lit "match ! (/ x / ((""a"" . x ) | _ ) : f ) ; ".
Proof. vm_compute. reflexivity. Qed.
