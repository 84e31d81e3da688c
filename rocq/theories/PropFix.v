(** * PropFix: fixed points and the parameters of their functions.

    Vocabulary: [reduce], [typecheck], [infer] (the model of the code),
    [gram_of] (the grammar the type checker reads), [single] (SpecFix: one
    parameter under each fixed point), [lang_of] (SpecLang), [has_sty]
    (SpecSimple). *)
From Coq Require Import String.
From Verif Require Import FixFacts SpecSimple SpecScope SpecSyntax ConvertFacts SimpleFacts ReduceMore ReduceFacts StepFacts PropReduce PropNibble Main Examples.
From Coq Require Import List Lia.
Open Scope list_scope.

(** ** C21: fixed points of functions *)
(** When each fixed point has a function of one parameter, the fixed point and
    the function called on the fixed point are the same language, whatever
    the free variables stand for. *)
Theorem C21_unfold : forall n a f v g, reduce n (EFix a f) = Ok v -> gram_of v = Some g -> single (erase v) ->
  exists m v' g', reduce m (ECall a f [EFix a f]) = Ok v' /\ gram_of v' = Some g'
    /\ forall env, same_lang (lang_of env g) (lang_of env g').
Proof.
  intros n a f v g Hr Hg Hs. rewrite gram_of_lgram in Hg. pose proof (C40_sound _ _ _ Hr) as H. cbn [erase] in H.
  destruct (fix_unfold _ _ _ H Hg Hs) as (w' & g' & H1 & H2 & H3).
  destruct (C43_unique (ECall a f [EFix a f]) w' g' H1 H2) as ((m & v' & Hm) & U & _). exists m, v', g'. split; [exact Hm |].
  split; [now apply (U m v') | exact H3].
Qed.
(** Simply typed programs are such programs. *)
Theorem C21_simple : forall n e v, has_sty [] (erase e) SGram -> reduce n e = Ok v -> single (erase v).
Proof.
  intros n e v Ht Hr. destruct (typed_evals_single [] _ (Forall_nil _) Ht) as (w & g & H1 & H2 & H3).
  assert (E : erase v = w); [| now rewrite E]. destruct (C43_unique e w g) as (_ & U & _); [now apply evals_steps | exact H2 |]. now apply (U n v).
Qed.
(** A function of several parameters under a fixed point is accepted too, and
    its parameter list is ignored. *)
Theorem C21_parameters_ignored : forall fuel nm c a ai ns ns' b,
  infer fuel nm c (EFix a (ELam ai ns b)) = infer fuel nm c (EFix a (ELam ai ns' b)).
Proof. reflexivity. Qed.
(** So a parameter can be captured by an enclosing fixed point: the program
    [match !(/x/ "a" . !(/y z/ "b" . y | "c") | "d");] is accepted as if it
    were [match !(/x/ "a" . !(/z/ "b" . x | "c") | "d");]. *)
Definition capture (params : list string) (used : string) : stmt :=
  let inner := NParen 0 (NLambda 0 (map (fun s => idn s 0) params) 0
    (NAltP [(NLabelled (NCatP [(NCall [NLiteral (lit "b") 0], Some 0%N); (NCall [t_id used 0], None)]) None, Some 0%N);
            (NLabelled (NCatP [(NCall [NLiteral (lit "c") 0], None)]) None, None)])) in
  let outer := NParen 0 (NLambda 0 [idn "x" 0] 0
    (NAltP [(NLabelled (NCatP [(NCall [NLiteral (lit "a") 0], Some 0%N); (NCall [NFix 0 inner], None)]) None, Some 0%N);
            (NLabelled (NCatP [(NCall [NLiteral (lit "d") 0], None)]) None, None)])) in
  SGoal 0 (one (NFix 0 outer)) 0.
Definition accepted (s : stmt) (g : gram) : Prop :=
  wf_stmt s /\ exists e v r, convert_program no_join s = Ok e /\ reduce 20 e = Ok v /\ typecheck v = Ok r /\ gram_of_t r = g.
Theorem C21_capture_refuted : exists g,
  accepted (capture ["y"; "z"]%string "y") g /\ accepted (capture ["z"]%string "x") g
  /\ means_stmt [] (capture ["y"; "z"]%string "y") (LFix (LLam 1 (LAlt [LCat [LLit (lit "a"); LFix (LLam 2 (LAlt [LCat [LLit (lit "b"); LVar 1]; LLit (lit "c")]))]; LLit (lit "d")]))).
Proof.
  eexists. split; [| split].
  - split; [apply wf_of_parse; vm_compute; reflexivity |]. do 3 eexists. repeat split; vm_compute; reflexivity.
  - split; [apply wf_of_parse; vm_compute; reflexivity |]. do 3 eexists. repeat split; vm_compute; reflexivity.
  - apply (C47_scoping no_join); [apply wf_of_parse; vm_compute; reflexivity |]. eexists. split; vm_compute; reflexivity.
Qed.
Print Assumptions C21_unfold.
Print Assumptions C21_simple.
Print Assumptions C21_parameters_ignored.
Print Assumptions C21_capture_refuted.
(** [!(list "a")] for [let list x y = x . y | _]: not a literal function. *)
Definition ex_fixcall : nexpr :=
  EFix a0 (ECall a0 (ELam a0 [nvar "x"] (ELam a0 [nvar "y"] (alt2 (cat2 (V 1) (V 0)) (EEps a0)))) [L "a"]).
Example C21_ex : exists v g, reduce 20 ex_fixcall = Ok v /\ gram_of v = Some g /\ single (erase v)
  /\ g = GFix (GAlt [GCat [GLit (lit "a"); GVar 0]; GEps]).
Proof. do 2 eexists. split; [vm_compute; reflexivity |]. split; [vm_compute; reflexivity |]. split; [vm_compute; auto | reflexivity]. Qed.
