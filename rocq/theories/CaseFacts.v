(** * CaseFacts: proofs about the spelling of names. *)
From Coq Require Import String NArith.
From Verif Require Import SpecCase Source SpecSyntax ConvertFacts OriginFacts.
From Coq Require Import List Lia.
Open Scope list_scope.

(** ** The names of the converted expression are names of the program *)
Section Names.
  Variable join : span -> span -> option span.
  Variable l : list ident.
  Definition named_in (n : name) : Prop := match n_content n with Spanned i => In i l | Spanless s => s = lit "Ast" end.
  Notation T := (fun _ : span => True).
  Notation mk := (marked T T T named_in).

  Lemma yields_rest_all (P : nexpr -> Prop) f ps : Forall (fun x : node * option span => yields P (f (fst x))) ps ->
    forall punct, yields (Forall (fun x : span * nexpr => True /\ P (snd x))) (convert_rest f punct ps).
  Proof.
    induction 1 as [| [n p] ps Hn _ IH]; intros punct; cbn [convert_rest]; [apply yields_ret; constructor |].
    eapply yields_bind; [exact Hn |]. intros e He. eapply yields_bind; [apply IH |]. intros r Hr. apply yields_ret. constructor; auto.
  Qed.
  Lemma convert_named n : incl (node_idents n) l -> yields mk (convert join n).
  Proof.
    induction n using node_ind'; intros Hi; cbn [convert node_idents] in *.
    - apply yields_ret. constructor. split; exact Logic.I.
    - intros ctx e E. destruct (lookup ctx _); [| discriminate E]. injection E as <-. constructor; [| discriminate]. split; [exact Logic.I |]. apply Hi. now left.
    - apply yields_ret. constructor. split; exact Logic.I.
    - eapply yields_bind; [apply IHn, Hi |]. intros e He. apply yields_ret. constructor; [split; exact Logic.I | exact He].
    - apply IHn, Hi.
    - destruct ts as [| t ts]; [intros ctx e E; discriminate E |]. inversion H as [| ? ? Ht Hts]; subst. cbn [flat_map] in Hi.
      eapply yields_bind; [apply Ht; intros x Hx; apply Hi, in_or_app; now left |]. intros e He.
      assert (Hc : Forall (fun n => yields ((fun _ => mk) n) (convert join n)) ts).
      { rewrite Forall_forall in *. intros x Hx. apply Hts; [exact Hx |]. intros y Hy. apply Hi, in_or_app. right. apply in_flat_map. eauto. }
      eapply yields_bind; [apply (yields_args _ _ _ Hc) |]. intros es Hes. destruct es as [| e1 es]; [now apply yields_ret |].
      apply yields_ret. constructor; [split; exact Logic.I | exact He |].
      assert (G : forall (l : list node) m, Forall2 (fun _ => mk) l m -> Forall mk m) by (induction 1; constructor; auto). now apply G in Hes.
    - destruct ps as [| [t p] ps]; [intros ctx e E; discriminate E |]. inversion H as [| ? ? Ht Hts]; subst. cbn [flat_map fst] in Hi.
      eapply yields_bind; [apply Ht; intros x Hx; apply Hi, in_or_app; now left |]. intros e He.
      eapply yields_bind; [apply yields_rest_all with (P := mk) |].
      { rewrite Forall_forall in *. intros x Hx. apply Hts; [exact Hx |]. intros y Hy. apply Hi, in_or_app. right. apply in_flat_map. eauto. }
      intros es Hes. destruct es as [| e1 es]; [now apply yields_ret |]. apply yields_ret. constructor; [split; exact Logic.I | exact He | exact Hes | discriminate].
    - eapply yields_bind; [apply IHn; intros x Hx; apply Hi, in_or_app; now left |]. intros e He. apply yields_ret.
      apply marked_set_ann; [split; [exact Logic.I |] | intros Hz; apply merge_some; now right | exact He].
      apply name_ok_merge; [| eapply marked_name; exact He]. destruct l0 as [[sp i] |]; [| exact Logic.I]. cbn. apply Hi, in_or_app. right. now left.
    - destruct ps as [| [t p] ps]; [intros ctx e E; discriminate E |]. inversion H as [| ? ? Ht Hts]; subst. cbn [flat_map fst] in Hi.
      eapply yields_bind; [apply Ht; intros x Hx; apply Hi, in_or_app; now left |]. intros e He.
      eapply yields_bind; [apply yields_rest_all with (P := mk) |].
      { rewrite Forall_forall in *. intros x Hx. apply Hts; [exact Hx |]. intros y Hy. apply Hi, in_or_app. right. apply in_flat_map. eauto. }
      intros es Hes. destruct es as [| e1 es]; [now apply yields_ret |]. apply yields_ret. constructor; [split; exact Logic.I | exact He | exact Hes | discriminate].
    - eapply yields_bind; [apply yields_variables, IHn; intros x Hx; apply Hi, in_or_app; now right |]. intros e He. apply yields_ret.
      constructor; [split; exact Logic.I | | exact He]. apply Forall_forall. intros x Hin. apply in_map_iff in Hin as (i & <- & Hin). cbn. apply Hi, in_or_app. now left.
  Qed.
  Lemma convert_stmt_named s : incl (stmt_idents s) l -> yields mk (convert_stmt join s).
  Proof.
    induction s as [k n semi | k x args eq n semi next IH]; intros Hi; cbn [stmt_idents] in Hi; cbn [convert_stmt].
    - eapply yields_bind; [apply convert_named, Hi |]. intros e He. apply yields_ret.
      apply marked_set_ann; [split; [exact Logic.I |] | intros _; apply merge_some; right; discriminate | exact He].
      apply name_ok_merge; [eapply marked_name; exact He | reflexivity].
    - assert (Hx : In x l) by (apply Hi; now left).
      assert (Hn : incl (node_idents n) l) by (intros y Hy; apply Hi; right; rewrite !in_app_iff; auto).
      assert (Oa : Forall named_in (map (fun j => new_variable (Spanned j)) args)).
      { apply Forall_forall. intros y Hin. apply in_map_iff in Hin as (i & <- & Hin). cbn. apply Hi. right. rewrite !in_app_iff. auto. }
      eapply yields_bind with (P := mk).
      + destruct args as [| a args]; [now apply convert_named |].
        eapply yields_bind; [apply yields_variables, convert_named, Hn |]. intros e He. apply yields_ret. constructor; [split; exact Logic.I | exact Oa | exact He].
      + intros b Hb. eapply yields_bind with (P := fun _ => True); [now intros ctx y _ |]. intros _ _. eapply yields_bind; [apply IH; intros y Hy; apply Hi; right; rewrite !in_app_iff; auto |]. intros c Hc.
        apply yields_ret. constructor; [split; exact Logic.I | exact Hx | | exact Hc]. apply marked_set_name; [exact Hx | discriminate | exact Hb].
  Qed.
  Lemma program_named fuel s e v : incl (stmt_idents s) l -> convert_program join s = Ok e -> reduce fuel e = Ok v -> mk v.
  Proof.
    intros Hi Ec Er. pose proof (convert_stmt_named s Hi [] e Ec) as M. pose proof (marked_reduce _ _ _ _ fuel e M) as M'. now rewrite Er in M'.
  Qed.
End Names.

(** ** heck *)
Notation plainb := (fun c => negb (N.eqb c 95)).
Lemma lower_same c : to_lower c = lower c.
Proof. reflexivity. Qed.
Lemma lower_idem c : lower (lower c) = lower c.
Proof.
  unfold lower. destruct (N.leb_spec 65 c); cbn [andb]; [| now destruct (N.leb_spec 65 c); try lia].
  destruct (N.leb_spec c 90); cbn [andb].
  - destruct (N.leb_spec 65 (c + 32)); cbn [andb]; auto. destruct (N.leb_spec (c + 32) 90); auto. lia.
  - destruct (N.leb_spec 65 c); cbn [andb]; auto. destruct (N.leb_spec c 90); auto. lia.
Qed.
Lemma lower_upper c : lower (to_upper c) = lower c.
Proof.
  unfold to_upper, is_lower, in_range. change (chr "a") with 97%N. change (chr "z") with 122%N.
  destruct (N.leb_spec 97 c); cbn [andb]; auto. destruct (N.leb_spec c 122); cbn [andb]; auto.
  unfold lower. destruct (N.leb_spec 65 (c - 32)); try lia. destruct (N.leb_spec (c - 32) 90); try lia. cbn [andb].
  destruct (N.leb_spec 65 c); cbn [andb]; try lia. destruct (N.leb_spec c 90); lia.
Qed.
Lemma lower_plain c : plainb (lower c) = plainb c.
Proof.
  cbv beta. f_equal. unfold lower. destruct (N.leb_spec 65 c); cbn [andb]; auto. destruct (N.leb_spec c 90); cbn [andb]; auto.
  destruct (N.eqb_spec (c + 32) 95), (N.eqb_spec c 95); auto; lia.
Qed.
Lemma capital_lower w : map lower (capital w) = map lower w.
Proof.
  destruct w as [| c w]; auto. cbn [capital map]. rewrite lower_upper. f_equal. rewrite map_map. apply map_ext. intros x. exact (lower_idem x).
Qed.

Definition solid (w : rstr) : Prop := w <> [] /\ forallb plainb w = true.
Lemma words_spec s : forall mode cur, forallb plainb cur = true ->
  concat (words mode cur s) = rev cur ++ filter plainb s /\ Forall solid (words mode cur s).
Proof.
  assert (R : forall w, forallb plainb w = true -> forallb plainb (rev w) = true).
  { intros w H. apply forallb_forall. intros x Hx. rewrite forallb_forall in H. apply H. now apply in_rev. }
  assert (F : forall (w : rstr) ws, forallb plainb w = true -> Forall solid ws ->
    let r := match w with [] => ws | _ => rev w :: ws end in concat r = rev w ++ concat ws /\ Forall solid r).
  { intros w ws H Hs. destruct w as [| x w]; cbn zeta; [split; auto |]. split; [reflexivity |]. constructor; [| exact Hs]. split; [| now apply R].
    cbn [rev]. destruct (rev w); discriminate. }
  induction s as [| c s IH]; intros mode cur Hc; cbn [words filter].
  - destruct (F cur [] Hc (Forall_nil _)) as [F1 F2]. split; [| exact F2]. rewrite F1. reflexivity.
  - change (chr "_") with 95%N. destruct (N.eqb_spec c 95) as [-> | Hn]; cbn [negb].
    + destruct (IH None [] eq_refl) as [I1 I2]. destruct (F cur _ Hc I2) as [F1 F2]. split; [| exact F2]. rewrite F1, I1. reflexivity.
    + assert (Hc' : forallb plainb (c :: cur) = true) by (cbn [forallb]; rewrite Hc; destruct (N.eqb_spec c 95); [congruence | reflexivity]).
      destruct s as [| d s'].
      * destruct (F (c :: cur) [] Hc' (Forall_nil _)) as [F1 F2]. split; [| exact F2]. refine (eq_trans F1 _). cbn [rev concat filter]. rewrite <- app_assoc. reflexivity.
      * set (m' := if is_lower c then Some true else if is_upper c then Some false else mode) in *.
        destruct ((match m' with Some true => true | _ => false end && is_upper d)%bool).
        -- destruct (IH None [] eq_refl) as [I1 I2]. destruct (F (c :: cur) _ Hc' I2) as [F1 F2]. split; [| exact F2]. refine (eq_trans F1 _). rewrite I1. cbn [rev app]. rewrite <- app_assoc. reflexivity.
        -- destruct ((match mode with Some false => true | _ => false end && is_upper c && is_lower d)%bool).
           ++ assert (H1 : forallb plainb [c] = true) by (cbn [forallb]; destruct (N.eqb_spec c 95); [congruence | reflexivity]).
              destruct (IH None [c] H1) as [I1 I2]. destruct (F cur _ Hc I2) as [F1 F2]. split; [| exact F2]. refine (eq_trans F1 _). rewrite I1. reflexivity.
           ++ destruct (IH m' (c :: cur) Hc') as [I1 I2]. split; [| exact I2]. rewrite I1. cbn [rev]. rewrite <- app_assoc. reflexivity.
Qed.
Lemma valid_ident_same s t : valid_ident s = Some t -> t = s.
Proof. unfold valid_ident. destruct s as [| c s]; [discriminate |]. destruct (ident_start c && forallb ident_rest s)%bool; congruence. Qed.
Lemma camel_letters s c : camel heck s = Some c -> map lower c = letters s.
Proof.
  cbn [camel heck]. intros E. apply valid_ident_same in E. subst c. destruct (words_spec s None [] eq_refl) as [W _]. cbn [rev app] in W. unfold letters. rewrite <- W.
  rewrite !concat_map. f_equal. rewrite map_map. apply map_ext, capital_lower.
Qed.
Lemma filter_plain w : forallb plainb w = true -> filter plainb w = w.
Proof. induction w as [| c w IH]; auto. cbn [forallb filter]. intros H. apply andb_prop in H as [H1 H2]. rewrite H1. f_equal. auto. Qed.
Lemma join_filter ws : Forall solid ws -> filter plainb (join_words (map (map to_lower) ws)) = map lower (concat ws).
Proof.
  assert (K : forall w, solid w -> filter plainb (map to_lower w) = map lower w).
  { intros w [_ Hw]. apply filter_plain. apply forallb_forall. intros x Hx. apply in_map_iff in Hx as (y & <- & Hy). rewrite forallb_forall in Hw. rewrite <- (Hw y Hy). exact (lower_plain y). }
  induction 1 as [| w ws Hw Hws IH]; [reflexivity |]. cbn [map concat]. rewrite map_app. destruct ws as [| w' ws].
  - cbn [map join_words concat]. rewrite app_nil_r. now apply K.
  - change (join_words (map to_lower w :: map (map to_lower) (w' :: ws))) with (map to_lower w ++ chr "_" :: join_words (map (map to_lower) (w' :: ws))).
    rewrite filter_app, (K w Hw). f_equal. change (chr "_") with 95%N. cbn [filter N.eqb negb]. exact IH.
Qed.
Lemma snake_letters s c : snake heck s = Some c -> filter plainb c = letters s.
Proof.
  cbn [snake heck]. intros E. apply valid_ident_same in E. subst c. destruct (words_spec s None [] eq_refl) as [W Hs]. rewrite (join_filter _ Hs), W. reflexivity.
Qed.
Lemma lower_digit x : (48 <= x <= 57)%N -> lower x = x.
Proof. unfold lower. intros H. destruct (N.leb_spec 65 x); auto. lia. Qed.
Lemma clean_camel s c : clean s -> camel heck s = Some c ->
  (forall u x, c = u ++ [x] -> ~ (48 <= x <= 57)%N) /\ ~ In c [lit "Lit"; lit "Cat"; lit "Alt"; lit "Fix"; lit "Branch"].
Proof.
  intros [H1 H2] E. apply camel_letters in E. split.
  - intros u x -> Hx. rewrite map_app in E. cbn [map] in E. rewrite (lower_digit x Hx) in E. exact (H1 _ _ (eq_sym E) Hx).
  - intros Hi. apply H2. rewrite <- E. cbn [In] in *. destruct Hi as [<- | [<- | [<- | [<- | [<- | []]]]]]; vm_compute; tauto.
Qed.
Lemma clean_snake s c : clean s -> snake heck s = Some c -> (forall u x, c = u ++ [x] -> ~ (48 <= x <= 57)%N) /\ c <> lit "part".
Proof.
  intros [H1 H2] E. apply snake_letters in E. split.
  - intros u x -> Hx. rewrite filter_app in E. cbn [filter] in E. destruct (N.eqb_spec x 95); [lia |]. cbn [negb] in E. exact (H1 _ _ (eq_sym E) Hx).
  - intros ->. apply H2. rewrite <- E. vm_compute. tauto.
Qed.

Lemma letter_cases x : (97 <= lower x <= 122)%N -> ident_start x = true.
Proof.
  unfold lower, ident_start, is_lower, is_upper, in_range. change (chr "a") with 97%N. change (chr "z") with 122%N. change (chr "A") with 65%N. change (chr "Z") with 90%N.
  destruct (N.leb_spec 65 x), (N.leb_spec x 90), (N.leb_spec 97 x), (N.leb_spec x 122); cbn [andb orb]; intros; auto; lia.
Qed.
Lemma digit_cases x : (48 <= lower x <= 57)%N -> ident_rest x = true.
Proof.
  unfold lower, ident_rest, is_num, in_range. change (chr "0") with 48%N. change (chr "9") with 57%N.
  destruct (N.leb_spec 65 x), (N.leb_spec x 90); cbn [andb]; intros; try lia; destruct (N.leb_spec 48 x), (N.leb_spec x 57); try lia; now rewrite Bool.orb_true_r.
Qed.
Lemma rest_cases x : (97 <= lower x <= 122)%N \/ (48 <= lower x <= 57)%N -> ident_rest x = true.
Proof. intros [H | H]; [unfold ident_rest; now rewrite (letter_cases x H) | now apply digit_cases]. Qed.
Lemma speakable_camel s : speakable s -> camel heck s <> None.
Proof.
  intros [(c & w & E & Hc) Ha]. cbn [camel heck]. destruct (words_spec s None [] eq_refl) as [W _]. cbn [rev app] in W.
  set (z := concat (map capital (words None [] s))). assert (Hz : map lower z = letters s).
  { unfold z, letters. rewrite <- W, !concat_map. f_equal. rewrite map_map. apply map_ext, capital_lower. }
  clearbody z. unfold valid_ident. destruct z as [| x z]; [rewrite E in Hz; discriminate Hz |]. cbn [map] in Hz. rewrite E in Hz. injection Hz as Hx Hz'.
  rewrite (letter_cases x ltac:(now rewrite Hx)). cbn [andb]. enough (Hf : forallb ident_rest z = true) by (now rewrite Hf).
  apply forallb_forall. intros y Hy. apply rest_cases. rewrite E in Ha. inversion Ha as [| ? ? _ Ha']; subst. rewrite Forall_forall in Ha'. apply Ha'. now apply in_map.
Qed.
Lemma speakable_snake s : speakable s -> snake heck s <> None.
Proof.
  intros [(c & w & E & Hc) Ha]. cbn [snake heck]. destruct (words_spec s None [] eq_refl) as [W Hs]. cbn [rev app] in W.
  assert (Hz : filter plainb (join_words (map (map to_lower) (words None [] s))) = letters s) by (rewrite (join_filter _ Hs), W; reflexivity).
  assert (Hne : forall x z, join_words (map (map to_lower) (words None [] s)) = x :: z -> plainb x = true).
  { intros x z Ez. destruct Hs as [| v ws [Hv1 Hv2] _]; [discriminate Ez |]. destruct v as [| y v]; [congruence |]. cbn [forallb] in Hv2. apply andb_prop in Hv2 as [Hy _].
    cbn [map join_words] in Ez. assert (Exy : x = to_lower y) by (destruct (map (map to_lower) ws); cbn [app] in Ez; congruence). subst x. rewrite <- Hy. exact (lower_plain y). }
  set (z := join_words (map (map to_lower) (words None [] s))) in *. clearbody z.
  assert (Hl : forall y, In y z -> y = 95%N \/ In y (letters s)).
  { intros y Hy. destruct (N.eqb_spec y 95); [now left | right]. rewrite <- Hz. apply filter_In. split; [exact Hy |]. now destruct (N.eqb_spec y 95). }
  assert (Hlow : forall y, In y (letters s) -> lower y = y).
  { intros y Hy. unfold letters in Hy. apply in_map_iff in Hy as (v & <- & _). apply lower_idem. }
  unfold valid_ident. destruct z as [| x z]; [rewrite E in Hz; discriminate Hz |].
  assert (Hx : x = c). { cbn [filter] in Hz. rewrite (Hne x z eq_refl), E in Hz. congruence. }
  subst x. assert (Hc' : lower c = c) by (apply Hlow; rewrite E; now left). rewrite (letter_cases c ltac:(now rewrite Hc')). cbn [andb].
  enough (Hf : forallb ident_rest z = true) by (now rewrite Hf). apply forallb_forall. intros y Hy.
  destruct (Hl y (or_intror Hy)) as [-> | Hy']; [reflexivity |]. apply rest_cases. rewrite (Hlow y Hy'). rewrite Forall_forall in Ha. now apply Ha.
Qed.
