(** * JsonPrint: what the printer writes, and that it is read back. *)
From Coq Require Import String ZArith.
From Verif Require Export JsonRead.
From Coq Require Import List Lia.
Open Scope list_scope.

Section ValueInd.
  Context {num : Type}.
  Variable P : value num -> Prop.
  Hypothesis Hnull : P JNull.
  Hypothesis Hbool : forall b, P (JBool b).
  Hypothesis Hnum : forall n, P (JNumber n).
  Hypothesis Hstr : forall s, P (JString s).
  Hypothesis Harr : forall l, Forall P l -> P (JArray l).
  Hypothesis Hobj : forall l, Forall (fun e => P (snd e)) l -> P (JObject l).
  Fixpoint value_ind' (v : value num) : P v :=
    match v with
    | JNull => Hnull
    | JBool b => Hbool b
    | JNumber n => Hnum n
    | JString s => Hstr s
    | JArray l => Harr l ((fix go l := match l return Forall P l with [] => Forall_nil _ | x :: l' => Forall_cons x (value_ind' x) (go l') end) l)
    | JObject l => Hobj l ((fix go l := match l return Forall (fun e => P (snd e)) l with [] => Forall_nil _ | x :: l' => Forall_cons x (value_ind' (snd x)) (go l') end) l)
    end.
End ValueInd.

Lemma valid_plain_cases c : (c <= max_char)%N -> is_plain c = true \/ c = 34%N \/ c = 92%N \/ c = 8%N \/ c = 12%N \/ c = 10%N \/ c = 13%N \/ c = 9%N \/ unprintable c.
Proof.
  intros H. destruct (is_plain c) eqn:E; [auto |]. right.
  assert (Hn : ~ ((32 <= c <= max_char)%N /\ c <> quote /\ c <> backslash)) by (rewrite <- is_plain_iff; congruence).
  unfold quote, backslash in Hn. unfold unprintable. cbn [In]. lia.
Qed.

Scheme val_min := Minimality for Val Sort Prop
with padded_min := Minimality for Padded Sort Prop
with elements_min := Minimality for Elements Sort Prop
with member_min := Minimality for Member Sort Prop
with members_min := Minimality for Members Sort Prop.
Combined Scheme texts_min from val_min, padded_min, elements_min, member_min, members_min.

Lemma valid_app_iff a b : valid_text (a ++ b) <-> valid_text a /\ valid_text b.
Proof. apply Forall_app. Qed.
Lemma valid_small s : Forall (fun c => (c < 128)%N) s -> valid_text s.
Proof. intros H. eapply Forall_impl; [| exact H]. intros c Hc. unfold max_char. cbn beta in Hc. lia. Qed.
Lemma ws_valid a : ws a -> valid_text a.
Proof. intros H. eapply Forall_impl; [| exact H]. intros c Hc. cbn in Hc. unfold max_char. lia. Qed.
Lemma chars_valid {num} (conv : rstr -> option num) w s : Chars (hand conv) w s -> valid_text w.
Proof.
  induction 1 as [| c w s Hc _ IH | e c w s He _ IH | u c w s [[_ Hu] _] _ IH].
  - constructor.
  - constructor; [| exact IH]. destruct Hc. lia.
  - constructor; [discriminate |]. constructor; [| exact IH]. cbn in He. unfold max_char. repeat (destruct He as [[= <- <-] | He]; [lia |]). contradiction.
  - constructor; [discriminate |]. constructor; [discriminate |]. apply valid_app_iff. split; [| exact IH]. eapply Forall_impl; [| exact Hu]. intros d Hd. unfold hex_digit, max_char in *. lia.
Qed.
Lemma quoted_valid {num} (conv : rstr -> option num) w s : Quoted (hand conv) w s -> valid_text w.
Proof. intros [w' s' H]. constructor; [discriminate |]. apply valid_app_iff. split; [now apply (chars_valid conv) in H | repeat constructor; discriminate]. Qed.
Lemma number_valid w : number_run_text w -> valid_text w.
Proof.
  intros [c w' Hc Hw]. constructor.
  - unfold max_char. destruct Hc as [Hc | ->]; [unfold digit in Hc; lia | discriminate].
  - eapply Forall_impl; [| exact Hw]. intros d [Hd | Hd]; unfold max_char; [unfold digit in Hd; lia |]. cbn in Hd. repeat (destruct Hd as [<- | Hd]; [lia |]). contradiction.
Qed.
Lemma texts_valid {num} (conv : rstr -> option num) :
  (forall w v, Val (hand conv) w v -> valid_text w) /\ (forall w v, Padded (hand conv) w v -> valid_text w) /\
  (forall w l, Elements (hand conv) w l -> valid_text w) /\ (forall w m, Member (hand conv) w m -> valid_text w) /\ (forall w l, Members (hand conv) w l -> valid_text w).
Proof.
  apply (texts_min num (hand conv) (fun w _ => valid_text w) (fun w _ => valid_text w) (fun w _ => valid_text w) (fun w _ => valid_text w) (fun w _ => valid_text w));
    intros; rewrite ?valid_app_iff; repeat split; try assumption; try (now apply valid_small; repeat constructor); try (now apply ws_valid).
  - destruct H as [H _]. now apply number_valid.
  - now apply (quoted_valid conv) in H.
  - cbn in H. subst w. constructor.
  - cbn in H. subst w. constructor.
  - now apply (quoted_valid conv) in H0.
Qed.

Section Rotate.
  Context {num : Type}.
  (** The value as it is printed: the first entry of every object comes last. *)
  Fixpoint rotate (v : value num) : value num :=
    match v with
    | JArray l => JArray (map rotate l)
    | JObject l => match map (fun e => (fst e, rotate (snd e))) l with [] => JObject [] | e :: l' => JObject (l' ++ [e]) end
    | _ => v
    end.
End Rotate.

(** Printing, for any dialect that can read what is printed. *)
Section PrintIn.
  Variable checks : bool.
  Context {num : Type}.
  Variable show : num -> rstr.
  Variable D : dialect num.
  Variables (ok_char : char -> Prop) (ok_number : num -> Prop).
  Hypothesis Hchar : forall c, ok_char c -> exists t, write_char checks c = Some t /\ Chars D t [c].
  Hypothesis Hnumber : forall n, ok_number n -> number_is D (show n) n.
  Hypothesis Hempty : inside_empty D [].
  (** Joining texts. *)
  Section Join.
    Context {A : Type}.
    Variable P : rstr -> A -> Prop.
    Hypothesis P_space : forall w x, P w x -> P (32%N :: w) x.
    Lemma sepby_space w l : SepBy (chr ",") P w l -> SepBy (chr ",") P (32%N :: w) l.
    Proof. intros [w' v H | w' v w2 l' H H2]; [constructor; auto | apply (sepby_more (chr ",") P (32%N :: w')); auto]. Qed.
    Lemma write_all_sepby l xs last x : Forall2 (fun o y => exists t, o = Some t /\ P t y) l xs -> P last x ->
      exists a, write_all l = Some a /\ SepBy (chr ",") P (a ++ last) (xs ++ [x]).
    Proof.
      intros H Hx. induction H as [| o y l xs (t & -> & Ht) _ (a & E & IH)].
      - exists []. split; [reflexivity |]. now constructor.
      - exists (t ++ lit ", " ++ a). cbn [write_all]. rewrite E. split; [reflexivity |]. cbn [app]. rewrite <- !app_assoc.
        change (t ++ lit ", " ++ a ++ last) with (t ++ [chr ","] ++ 32%N :: a ++ last). constructor; [exact Ht |]. now apply sepby_space.
    Qed.
  End Join.
  Lemma padded_of_val w v : Val D w v -> Padded D w v.
  Proof. intros H. rewrite <- (app_nil_r w). apply (padded D [] w []); [constructor | exact H | constructor]. Qed.
  Lemma ws_space a : ws a -> ws (32%N :: a).
  Proof. intros H. constructor; [cbn; auto | exact H]. Qed.
  Lemma padded_space w v : Padded D w v -> Padded D (32%N :: w) v.
  Proof. intros [a w' b v' Ha Hv Hb]. apply (padded D (32%N :: a)); [now apply ws_space | exact Hv | exact Hb]. Qed.
  Lemma member_space w m : Member D w m -> Member D (32%N :: w) m.
  Proof. intros [a q k b w' v Ha Hq Hb Hv]. apply (member D (32%N :: a)); [now apply ws_space | exact Hq | exact Hb | exact Hv]. Qed.

  Lemma elements_sepby_in w l : SepBy (chr ",") (Padded D) w l -> Elements D w l.
  Proof. induction 1; [now constructor | now apply (elements_more D)]. Qed.
  Lemma members_sepby_in w l : SepBy (chr ",") (Member D) w l -> Members D w l.
  Proof. induction 1; [now constructor | now apply (members_more D)]. Qed.
  Lemma chars_app w s w' s' : Chars D w s -> Chars D w' s' -> Chars D (w ++ w') (s ++ s').
  Proof.
    induction 1 as [| c w s Hc _ IH | e c w s He _ IH | u c w s Hu _ IH]; intros H'; cbn [app].
    - exact H'.
    - constructor; auto.
    - apply chars_escape; auto.
    - rewrite <- app_assoc. apply chars_unicode; auto.
  Qed.
  Lemma write_chars_in s : Forall ok_char s -> exists t, write_chars checks s = Some t /\ Chars D t s.
  Proof.
    induction 1 as [| c s Hc _ (t' & E' & IH)]; cbn [write_chars]; [exists []; split; [reflexivity | constructor] |].
    destruct (Hchar c Hc) as (t & -> & Ht). rewrite E'. exists (t ++ t'). split; [reflexivity |]. now apply (chars_app t [c] t' s).
  Qed.
  Lemma write_str_in s : Forall ok_char s -> exists t, write_str checks s = Some t /\ Quoted D t s.
  Proof. intros H. destruct (write_chars_in s H) as (t & E & Ht). unfold write_str. rewrite E. eexists. split; [reflexivity |]. now constructor. Qed.
  Theorem display_in v : everywhere (Forall ok_char) ok_number (fun _ => True) v -> exists t, display checks show v = Some t /\ Val D t (rotate v).
  Proof.
    induction v as [| b | n | s | l IH | l IH] using value_ind'; intros Hf; inversion Hf as [| | n' Hn | s' Hs | l' Hl | l' _ Hl]; subst.
    - eexists. split; [reflexivity | constructor].
    - destruct b; (eexists; split; [reflexivity | constructor]).
    - eexists. split; [reflexivity |]. apply val_number. now apply Hnumber.
    - cbn [display rotate]. destruct (write_str_in s Hs) as (t & E & Ht). exists t. split; [exact E |]. now constructor.
    - cbn [display rotate].
      assert (Hall : Forall2 (fun o y => exists t, o = Some t /\ Padded D t y) (map (display checks show) l) (map rotate l)).
      { clear Hf. induction l as [| x l IHl]; cbn; constructor.
        - apply Forall_cons_iff in IH as [IH _]. apply Forall_cons_iff in Hl as [Hx _]. destruct (IH Hx) as (t & E & Ht). exists t. split; [exact E |]. now apply padded_of_val.
        - apply Forall_cons_iff in IH as [_ IH]. apply Forall_cons_iff in Hl as [_ Hl]. now apply IHl. }
      destruct l as [| x0 l0] using rev_ind; [eexists; split; [reflexivity | now apply (val_array0 D [] Hempty)] |]. clear IHl0.
      rewrite !map_app in *. cbn [map] in *. rewrite rev_app_distr. cbn [rev app].
      apply Forall2_app_inv_l in Hall as (xs & ys & H1 & H2 & E). inversion H2 as [| o y l1 l2 (t & Et & Ht) H3]; subst. inversion H3; subst.
      apply app_inj_tail in E as [<- <-]. rewrite Et. rewrite rev_involutive.
      destruct (write_all_sepby (Padded D) padded_space _ _ t _ H1 Ht) as (a & Ea & Hs). unfold write_then. rewrite Ea. cbn [option_map].
      eexists. split; [reflexivity |]. apply (val_array D (a ++ t)). now apply elements_sepby_in.
    - cbn [display rotate].
      assert (Hall : Forall2 (fun o y => exists t, o = Some t /\ Member D t y) (map (fun e => write_entry checks (fst e) (display checks show (snd e))) l) (map (fun e => (fst e, rotate (snd e))) l)).
      { clear Hf. induction l as [| [k x] l IHl]; cbn [map]; constructor.
        - apply Forall_cons_iff in IH as [IH _]. apply Forall_cons_iff in Hl as [[Hk Hx] _]. cbn [fst snd] in *. destruct (IH Hx) as (t & E & Ht).
          destruct (write_str_in k Hk) as (q & Eq & Hq). unfold write_entry. rewrite E, Eq. eexists. split; [reflexivity |].
          change (q ++ lit " : " ++ t) with ([] ++ q ++ lit " " ++ lit ":" ++ lit " " ++ t). constructor; [constructor | exact Hq | constructor; [cbn; auto | constructor] |].
          apply padded_space. now apply padded_of_val.
        - apply Forall_cons_iff in IH as [_ IH]. apply Forall_cons_iff in Hl as [_ Hl]. now apply IHl. }
      inversion Hall as [El1 El2 | o y l1 l2 (t & Et & Ht) H3 El1 El2]; [eexists; split; [reflexivity | now apply (val_object0 D [] Hempty)] |].
      rewrite Et. destruct (write_all_sepby (Member D) member_space _ _ t _ H3 Ht) as (a & Ea & Hs). unfold write_then. rewrite Ea. cbn [option_map].
      eexists. split; [reflexivity |]. apply (val_object D (a ++ t)). now apply members_sepby_in.
  Qed.

End PrintIn.

Section Print.
  Variable checks : bool.
  Context {num : Type}.
  Variable conv : rstr -> option num.
  Variable show : num -> rstr.
  Notation D := (hand conv).

  Lemma write_char_unprintable c : unprintable c -> write_char checks c = None.
  Proof.
    intros [H1 H2]. cbn [In] in H2. unfold write_char.
    destruct (is_plain c) eqn:E; [apply is_plain_iff in E; lia |].
    rewrite (proj2 (N.eqb_neq c 34)), (proj2 (N.eqb_neq c 92)), (proj2 (N.eqb_neq c 8)), (proj2 (N.eqb_neq c 12)), (proj2 (N.eqb_neq c 10)), (proj2 (N.eqb_neq c 13)), (proj2 (N.eqb_neq c 9)) by lia.
    unfold u32_sub, unorm. replace ((0 <=? Z.of_N c - Z.of_N 65536) && (Z.of_N c - Z.of_N 65536 <? 4294967296))%Z with false by (symmetry; apply andb_false_iff; left; apply Z.leb_gt; lia).
    destruct checks; [reflexivity |]. cbn iota.
    replace ((Z.of_N c - Z.of_N 65536) mod 4294967296)%Z with (Z.of_N c + 4294901760)%Z.
    2: { apply (Z.mod_unique _ _ (-1)%Z); lia. }
    unfold u16_of_u32. replace (Z.to_N (Z.of_N c + 4294901760) / 1024 + 55296 <? 65536)%N with false; [reflexivity |].
    symmetry. apply N.ltb_ge. assert (4194240 <= Z.to_N (Z.of_N c + 4294901760) / 1024)%N; [| lia]. apply N.div_le_lower_bound; lia.
  Qed.
  Lemma write_char_ok c : (c <= max_char)%N -> ~ unprintable c -> exists t, write_char checks c = Some t /\ Chars D t [c].
  Proof.
    intros H Hu. destruct (valid_plain_cases c H) as [E | [-> | [-> | [-> | [-> | [-> | [-> | [-> | E]]]]]]]]; try contradiction;
      try (eexists; split; [reflexivity |]; apply chars_escape; [cbn; auto 12 | constructor]).
    exists [c]. unfold write_char. rewrite E. split; [reflexivity |]. apply chars_plain; [now apply is_plain_iff | constructor].
  Qed.
  Lemma write_chars_none s : Exists unprintable s -> write_chars checks s = None.
  Proof.
    induction 1 as [c s H | c s _ IH]; cbn [write_chars].
    - now rewrite write_char_unprintable.
    - rewrite IH. now destruct (write_char checks c).
  Qed.
  Lemma write_chars_ok s : valid_text s -> Forall (fun c => ~ unprintable c) s -> exists t, write_chars checks s = Some t /\ Chars D t s.
  Proof.
    induction 1 as [| c s Hc _ IH]; intros Hs; cbn [write_chars]; [exists []; split; [reflexivity | constructor] |].
    apply Forall_cons_iff in Hs as [Hu Hs]. destruct (write_char_ok c Hc Hu) as (t & -> & Ht). destruct (IH Hs) as (t' & -> & Ht').
    exists (t ++ t'). split; [reflexivity |]. now apply (chars_snoc conv t [c] t' s).
  Qed.
  Lemma unprintable_dec c : {unprintable c} + {~ unprintable c}.
  Proof.
    unfold unprintable. destruct (N.ltb c 32) eqn:E1; [apply N.ltb_lt in E1 | right; intros [H _]; apply N.ltb_ge in E1; lia].
    destruct (in_dec N.eq_dec c [8; 9; 10; 12; 13]%N) as [H | H]; [right; tauto | left; auto].
  Qed.
  Lemma unprintable_text s : Exists unprintable s \/ Forall (fun c => ~ unprintable c) s.
  Proof. destruct (Exists_dec unprintable s unprintable_dec) as [H | H]; [auto | right; now apply Forall_Exists_neg]. Qed.
  Lemma write_str_ok s : valid_text s -> Forall (fun c => ~ unprintable c) s -> exists t, write_str checks s = Some t /\ Quoted D t s.
  Proof.
    intros H1 H2. destruct (write_chars_ok s H1 H2) as (t & E & Ht). unfold write_str. rewrite E. eexists. split; [reflexivity |]. now constructor.
  Qed.
  Lemma write_str_none s : Exists unprintable s -> write_str checks s = None.
  Proof. intros H. unfold write_str. now rewrite write_chars_none. Qed.

  Definition printed_number (n : num) : Prop := number_run_text (show n) /\ conv (show n) = Some n.
  Definition printable (s : rstr) : Prop := valid_text s /\ Forall (fun c => ~ unprintable c) s.
  Definition fine_value (v : value num) : Prop := everywhere printable printed_number (fun _ => True) v.

  Lemma everywhere_impl (S S' : rstr -> Prop) (N N' : num -> Prop) (K K' : list rstr -> Prop) v : (forall s, S s -> S' s) -> (forall n, N n -> N' n) -> (forall l, K l -> K' l) ->
    everywhere S N K v -> everywhere S' N' K' v.
  Proof.
    intros HS HN HK. induction v as [| b | n | s | l IH | l IH] using value_ind'; intros H; inversion H as [| | n' Hn | s' Hs | l' Hl | l' Hk Hl]; subst; constructor; auto.
    - rewrite Forall_forall in *. auto.
    - rewrite Forall_forall in *. intros e He. split; [apply HS; now apply (Hl e He) | apply (IH e He); now apply (Hl e He)].
  Qed.
  Theorem display_val v : fine_value v -> exists t, display checks show v = Some t /\ Val D t (rotate v).
  Proof.
    intros H. apply (display_in checks show D (fun c => (c <= max_char)%N /\ ~ unprintable c) printed_number).
    - intros c [H1 H2]. now apply write_char_ok.
    - auto.
    - reflexivity.
    - revert H. apply everywhere_impl; auto. intros s [H1 H2]. unfold valid_text in H1. rewrite Forall_forall in *. auto.
  Qed.

  (** Rotating changes nothing for maps. *)
  Lemma lookup_app {A} k (l l' : list (rstr * A)) : lookup k (l ++ l') = match lookup k l' with Some v => Some v | None => lookup k l end.
  Proof. induction l as [| [k' v] l IH]; cbn [app lookup]; [now destruct (lookup k l') |]. rewrite IH. now destruct (lookup k l'). Qed.
  Lemma lookup_none {A} k (l : list (rstr * A)) : lookup k l = None <-> ~ In k (map fst l).
  Proof.
    induction l as [| [k' v] l IH]; cbn [lookup map fst In]; [tauto |]. destruct (lookup k l) eqn:E.
    - split; [discriminate |]. intros H. exfalso. assert (Some a = None); [| discriminate]. apply IH. tauto.
    - destruct (rstr_eqb k k') eqn:Ek.
      + apply rstr_eqb_eq in Ek. subst. split; [discriminate | tauto].
      + split; [| reflexivity]. intros _ [-> | H]; [rewrite rstr_eqb_refl in Ek; discriminate | now apply IH].
  Qed.
  Lemma lookup_map {A B} (f : A -> B) k (l : list (rstr * A)) : lookup k (map (fun e => (fst e, f (snd e))) l) = option_map f (lookup k l).
  Proof. induction l as [| [k' v] l IH]; cbn [map lookup fst snd]; [reflexivity |]. rewrite IH. destruct (lookup k l); [reflexivity |]. cbn. now destruct (rstr_eqb k k'). Qed.
  Lemma lookup_in {A} k v (l : list (rstr * A)) : lookup k l = Some v -> exists k', In (k', v) l.
  Proof.
    induction l as [| [k' v'] l IH]; cbn [lookup]; [discriminate |]. destruct (lookup k l) as [x |]; [intros [= ->]; destruct (IH eq_refl) as [k2 H]; exists k2; cbn; auto |].
    destruct (rstr_eqb k k'); intros [= ->]. exists k'. cbn. auto.
  Qed.
  Lemma same_rotate S N (v : value num) : everywhere S N (@NoDup rstr) v -> same v (rotate v).
  Proof.
    induction v as [| b | n | s | l IH | l IH] using value_ind'; intros Hf; inversion Hf as [| | n' Hn | s' Hs | l' Hl | l' Hk Hl]; subst; cbn [rotate]; try constructor.
    - clear Hf. induction l as [| x l IHl]; cbn [map]; constructor.
      + apply Forall_cons_iff in IH as [IH _]. apply Forall_cons_iff in Hl as [Hx _]. auto.
      + apply Forall_cons_iff in IH as [_ IH]. apply Forall_cons_iff in Hl as [_ Hl]. auto.
    - replace (match map (fun e => (fst e, rotate (snd e))) l with [] => JObject [] | e :: l' => JObject (l' ++ [e]) end)
        with (JObject (match map (fun e => (fst e, rotate (snd e))) l with [] => [] | e :: l' => l' ++ [e] end)) by (destruct (map (fun e => (fst e, rotate (snd e))) l); reflexivity).
      constructor. intros k.
      replace (lookup k (match map (fun e => (fst e, rotate (snd e))) l with [] => [] | e :: l' => l' ++ [e] end)) with (lookup k (map (fun e => (fst e, rotate (snd e))) l)).
      + rewrite lookup_map. destruct (lookup k l) as [x |] eqn:E; cbn; constructor. apply lookup_in in E as [k' E]. rewrite Forall_forall in IH, Hl. apply (IH _ E). now apply (Hl _ E).
      + destruct l as [| [k0 v0] l]; [reflexivity |]. cbn [map fst snd]. change ((k0, rotate v0) :: ?m) with ([(k0, rotate v0)] ++ m). rewrite !lookup_app.
        cbn [lookup map fst] in *. inversion Hk as [| ? ? Hn Hd]; subst.
        destruct (rstr_eqb k k0) eqn:Ek; [apply rstr_eqb_eq in Ek; subst k0 |]; rewrite lookup_map.
        * rewrite (proj2 (lookup_none k l) Hn). reflexivity.
        * now destruct (lookup k l).
  Qed.

  (** When printing succeeds. *)
  Definition clean (s : rstr) : Prop := Forall (fun c => ~ unprintable c) s.
  Lemma write_str_iff s : valid_text s -> (write_str checks s <> None <-> clean s).
  Proof.
    intros H. split.
    - intros Hn. destruct (unprintable_text s) as [E | E]; [| exact E]. now elim Hn; apply write_str_none.
    - intros Hc. destruct (write_str_ok s H Hc) as (t & -> & _). discriminate.
  Qed.
  Lemma write_all_iff l : write_all l <> None <-> Forall (fun o => o <> None) l.
  Proof.
    induction l as [| [t |] l IH]; cbn [write_all].
    - split; [constructor | discriminate].
    - rewrite Forall_cons_iff, <- IH. destruct (write_all l); split; [intros _; split; discriminate | discriminate | intros H; split; [discriminate | exact H] | intros [_ H]; exact H].
    - rewrite Forall_cons_iff. tauto.
  Qed.
  Lemma write_then_iff l o : write_then l o <> None <-> Forall (fun o => o <> None) l /\ o <> None.
  Proof. unfold write_then. rewrite <- write_all_iff. destruct (write_all l), o; split; try discriminate; try tauto. intros _. split; discriminate. Qed.
  Lemma option_map_iff {A B} (f : A -> B) o : option_map f o <> None <-> o <> None.
  Proof. destruct o; cbn; split; try discriminate; tauto. Qed.
  Lemma write_entry_iff k o : write_entry checks k o <> None <-> write_str checks k <> None /\ o <> None.
  Proof. unfold write_entry. destruct (write_str checks k), o; split; try discriminate; try tauto. intros _. split; discriminate. Qed.
  Theorem display_iff v : everywhere valid_text (fun _ => True) (fun _ => True) v ->
    (display checks show v <> None <-> everywhere clean (fun _ => True) (fun _ => True) v).
  Proof.
    induction v as [| b | n | s | l IH | l IH] using value_ind'; intros Hf; inversion Hf as [| | n' Hn | s' Hs | l' Hl | l' _ Hl]; subst.
    - split; [constructor | discriminate].
    - split; [constructor | destruct b; discriminate].
    - split; [now constructor | discriminate].
    - cbn [display]. rewrite (write_str_iff s Hs). split; [now constructor | intros H; now inversion H].
    - assert (Hd : Forall (fun o => o <> None) (map (display checks show) l) <-> Forall (everywhere clean (fun _ => True) (fun _ => True)) l).
      { rewrite Forall_map. clear Hf. induction l as [| x l IHl]; [split; constructor |]. apply Forall_cons_iff in IH as [IHx IH]. apply Forall_cons_iff in Hl as [Hx Hl].
        rewrite !Forall_cons_iff, (IHx Hx), (IHl IH Hl). tauto. }
      transitivity (Forall (fun o => o <> None) (map (display checks show) l)); [| rewrite Hd; split; [now constructor | intros H; now inversion H]].
      cbn [display]. rewrite <- (rev_involutive (map (display checks show) l)) at 2. destruct (rev (map (display checks show) l)) as [| o r]; [split; [constructor | discriminate] |].
      rewrite option_map_iff, write_then_iff. cbn [rev]. rewrite Forall_app, Forall_cons_iff. split; [intros [H1 H2]; repeat split; auto | intros (H1 & H2 & _); auto].
    - assert (Hd : Forall (fun o => o <> None) (map (fun e => write_entry checks (fst e) (display checks show (snd e))) l) <-> Forall (fun e => clean (fst e) /\ everywhere clean (fun _ => True) (fun _ => True) (snd e)) l).
      { rewrite Forall_map. clear Hf. induction l as [| [k x] l IHl]; [split; constructor |]. apply Forall_cons_iff in IH as [IHx IH]. apply Forall_cons_iff in Hl as [[Hk Hx] Hl].
        cbn [fst snd] in *. rewrite !Forall_cons_iff, write_entry_iff, (IHx Hx), (IHl IH Hl), (write_str_iff k Hk). cbn [fst snd]. tauto. }
      transitivity (Forall (fun o => o <> None) (map (fun e => write_entry checks (fst e) (display checks show (snd e))) l)); [| rewrite Hd; split; [now constructor | intros H; now inversion H]].
      cbn [display]. destruct (map (fun e => write_entry checks (fst e) (display checks show (snd e))) l) as [| o r]; [split; [constructor | discriminate] |].
      rewrite option_map_iff, write_then_iff, Forall_cons_iff. tauto.
  Qed.
End Print.
