(** * MessageFacts: the messages are sentences, and what they say is so. *)
From Coq Require Import String.
From Verif Require Export SpecMessages Messages DefectFacts NameFacts.
From Coq Require Import List Lia.
Open Scope list_scope.

(** ** A sentence determines its complaint *)
Lemma digits_split (a b c d : rstr) : Forall digit a -> Forall digit b -> (forall x y, c = x :: y -> ~ digit x) -> (forall x y, d = x :: y -> ~ digit x) ->
  a ++ c = b ++ d -> a = b /\ c = d.
Proof.
  revert b. induction a as [| x a IH]; intros [| y b] Ha Hb Hc Hd E; cbn in E; auto.
  - exfalso. inversion Hb; subst. exact (Hc y _ eq_refl H1).
  - exfalso. inversion Ha; subst. exact (Hd x _ eq_refl H1).
  - injection E as -> E. inversion Ha; subst. inversion Hb; subst. destruct (IH b) as [-> ->]; auto.
Qed.
Lemma not_digit_space : ~ digit (chr " ").
Proof. unfold digit. cbn. lia. Qed.
Lemma sentence_inj c c' : sentence c = sentence c' -> c = c'.
Proof.
  assert (Q : forall p s s', p ++ quoted s = p ++ quoted s' -> s = s').
  { intros p s s' E. apply app_inv_head in E. unfold quoted in E. apply app_inv_head in E. now apply app_inv_tail in E. }
  destruct c, c'; try reflexivity; try (intros E; vm_compute in E; discriminate E); cbn [sentence]; intros E; try (f_equal; now apply Q in E).
  apply app_inv_head in E. apply digits_split in E as [E1 E2]; try apply dec_digits; try (cbn; intros x y [= <- _]; exact not_digit_space).
  apply dec_inj in E1 as <-. do 3 apply app_inv_head in E2. apply digits_split in E2 as [E1 E3]; try apply dec_digits; try (cbn; intros x y [= <- _]; exact not_digit_space).
  now apply dec_inj in E1 as <-.
Qed.

(** ** The messages are sentences *)
Definition type_complaint (x : type_error) : option complaint :=
  match x with
  | FirstNullable _ _ => Some StartEmpty
  | FirstFlastOverlap _ _ _ => Some NextUnclear
  | BothNullable _ _ _ => Some TwoEmpty
  | FirstOverlap _ _ _ => Some SameStart
  | VariableError GuardedVariable _ _ (Some n) => Some (LeftRecursive (name_display n))
  | VariableError FreeVariable _ _ (Some n) => Some (Unbound (name_display n))
  | UnexpectedLambda _ _ => Some FunctionLeft
  | ExpectedLambda _ _ => Some FixOfNothing
  | _ => None
  end.
Lemma type_sentence x c : type_complaint x = Some c -> type_message x = sentence c.
Proof. destruct x as [| | | | [] ? ? [n |] | | | |]; intros [= <-]; reflexivity. Qed.
Lemma arity_sentence l args sp : lambda_arity l <> List.length args -> reduce_message (WrongArgCount l args sp) = sentence (Arity (lambda_arity l) (List.length args)).
Proof.
  intros H. cbn [reduce_message sentence]. unfold arguments, were. destruct (lambda_arity l) as [| [| m]], (List.length args) as [| [| n]]; cbn [Nat.eqb]; try (elim H; reflexivity);
    rewrite <- ?app_assoc; try reflexivity.
Qed.

(** ** A type error is wrong somewhere *)
Lemma explains_wrong nm r e x : explains nm r e x -> forall g c, gram_of e = Some g -> type_complaint x = Some c -> somewhere (wrong c) r g.
Proof.
  induction 1; intros G C HG HC; cbn [gram_of] in HG.
  - injection HG as <-. cbn in HC. destruct nm; [| discriminate]. injection HC as <-. apply sw_here. cbn. eauto.
  - injection HG as <-. cbn in HC. destruct nm; [| discriminate]. injection HC as <-. apply sw_here. cbn. eauto.
  - rewrite H in HG. destruct (all_some _) as [gs |]; [| discriminate]. injection HG as <-. injection HC as <-. apply sw_here. cbn. eauto.
  - destruct (gram_of f) as [g1 |] eqn:Ef; [| discriminate]. destruct (all_some _) as [gs' |] eqn:Egs; [| discriminate]. injection HG as <-. injection HC as <-.
    apply all_some_mid in Egs as (gs1 & h' & gs2 & -> & H9 & H10 & H11). cbn [snd] in H10. rewrite H0 in H10. injection H10 as <-.
    unfold grams in H. cbn [map all_some] in H. rewrite Ef, map_map, H9 in H. injection H as <-. apply sw_here. exists (g1 :: gs1), h, gs2, u, c, v, w. repeat split; auto. discriminate.
  - destruct (gram_of f) as [g1 |] eqn:Ef; [| discriminate]. destruct (all_some _) as [gs' |] eqn:Egs; [| discriminate]. injection HG as <-. injection HC as <-.
    apply all_some_mid in Egs as (gs1 & h' & gs2 & -> & H9 & H10 & H11). cbn [snd] in H10. rewrite H0 in H10. injection H10 as <-.
    unfold grams in H. cbn [map all_some] in H. rewrite Ef, map_map, H9 in H. injection H as <-. rewrite lang_of_alt in H4. apply lang_alts_in in H4 as (l1 & g & m1 & E & Hg).
    apply sw_here. exists l1, g, m1, h, gs2. split; [| auto]. change (g1 :: gs1 ++ h :: gs2) with ((g1 :: gs1) ++ h :: gs2). rewrite E, <- app_assoc. reflexivity.
  - destruct (gram_of f) as [g1 |] eqn:Ef; [| discriminate]. destruct (all_some _) as [gs' |] eqn:Egs; [| discriminate]. injection HG as <-. injection HC as <-.
    apply all_some_mid in Egs as (gs1 & h' & gs2 & -> & H9 & H10 & H11). cbn [snd] in H10. rewrite H0 in H10. injection H10 as <-.
    unfold grams in H. cbn [map all_some] in H. rewrite Ef, map_map, H9 in H. injection H as <-. rewrite lang_of_alt in H4. apply lang_alts_in in H4 as (l1 & g & m1 & E & Hg).
    apply sw_here. exists l1, g, m1, h, gs2, c, v, w. split; [| auto]. change (g1 :: gs1 ++ h :: gs2) with ((g1 :: gs1) ++ h :: gs2). rewrite E, <- app_assoc. reflexivity.
  - destruct (gram_of f) as [g1 |] eqn:Ef; [| discriminate]. destruct (all_some _) as [gs' |] eqn:Egs; [| discriminate]. injection HG as <-. apply sw_first. auto.
  - destruct (gram_of f) as [g1 |] eqn:Ef; [| discriminate]. destruct (all_some _) as [gs' |] eqn:Egs; [| discriminate]. injection HG as <-.
    destruct (all_some_in _ _ _ _ Egs H) as (h & H1 & H2). eapply sw_rest; [exact H2 |]. eapply IHexplains; [exact H1 | exact HC].
  - destruct (gram_of f) as [g1 |] eqn:Ef; [| discriminate]. destruct (all_some _) as [gs' |] eqn:Egs; [| discriminate]. injection HG as <-. eapply sw_alt; [now left |]. auto.
  - destruct (gram_of f) as [g1 |] eqn:Ef; [| discriminate]. destruct (all_some _) as [gs' |] eqn:Egs; [| discriminate]. injection HG as <-.
    destruct (all_some_in _ _ _ _ Egs H) as (h & H1 & H2). eapply sw_alt; [right; exact H2 |]. eapply IHexplains; [exact H1 | exact HC].
  - rewrite H in HG. injection HG as <-. apply sw_fix. auto.
Qed.
Lemma explains_not_function nm r e x : explains nm r e x -> match x with UnexpectedLambda _ _ | ExpectedLambda _ _ | UnexpectedCall _ _ | UnexpectedLet _ _ => False | _ => True end.
Proof. induction 1; auto. Qed.
