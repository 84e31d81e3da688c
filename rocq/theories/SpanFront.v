(** * SpanFront: the parser and the conversion commute with forgetting
    positions. *)
From Coq Require Import String.
From Verif Require Export SpanFacts SyntaxFacts ConvertFacts.
From Coq Require Import List Lia.
Open Scope list_scope.

(** ** Syntax trees without positions *)
Fixpoint unspan_node (n : node) : node :=
  match n with
  | NEpsilon _ => NEpsilon call_site
  | NIdent i => NIdent (unspan_ident i)
  | NLiteral v _ => NLiteral v call_site
  | NFix _ t => NFix call_site (unspan_node t)
  | NParen _ e => NParen call_site (unspan_node e)
  | NCall ts => NCall (map unspan_node ts)
  | NCatP ps => NCatP (map (fun x => (unspan_node (fst x), option_map (fun _ => call_site) (snd x))) ps)
  | NLabelled c l => NLabelled (unspan_node c) (option_map (fun x => (call_site, unspan_ident (snd x))) l)
  | NAltP ps => NAltP (map (fun x => (unspan_node (fst x), option_map (fun _ => call_site) (snd x))) ps)
  | NLambda _ args _ e => NLambda call_site (map unspan_ident args) call_site (unspan_node e)
  end.
Fixpoint unspan_stmt (s : stmt) : stmt :=
  match s with
  | SGoal _ e _ => SGoal call_site (unspan_node e) call_site
  | SLet _ nm args _ e _ next => SLet call_site (unspan_ident nm) (map unspan_ident args) call_site (unspan_node e) call_site (unspan_stmt next)
  end.
Notation un := (map unspan_token).
Definition unspan_pair (x : node * option span) : node * option span := (unspan_node (fst x), option_map (fun _ => call_site) (snd x)).

(** ** The parser *)
Definition commutes {A} (k : A -> A) (p : list token -> option (A * list token)) : Prop := forall ts, p (un ts) = option_map (both k un) (p ts).
Lemma un_word s i : is_word s (unspan_ident i) = is_word s i.
Proof. reflexivity. Qed.
Lemma un_reserved i : is_reserved (unspan_ident i) = is_reserved i.
Proof. reflexivity. Qed.
Lemma un_ident : commutes unspan_ident parse_ident.
Proof. intros ts. destruct ts as [| [i | | | |] ts]; try reflexivity. cbn [map unspan_token parse_ident]. rewrite un_reserved. now destruct (is_reserved i). Qed.
Lemma un_any : commutes unspan_ident parse_any.
Proof. intros ts. destruct ts as [| [i | | | |] ts]; reflexivity. Qed.
Lemma un_punct c : commutes (fun _ => call_site) (parse_punct c).
Proof. intros ts. destruct ts as [| [i | | d sp | |] ts]; try reflexivity. cbn. now destruct (N.eqb c d). Qed.
Lemma un_kw s : commutes (fun _ => call_site) (parse_kw s).
Proof. intros ts. destruct ts as [| [i | | d sp | |] ts]; try reflexivity. cbn [map unspan_token parse_kw]. rewrite un_word. now destruct (is_word _ i). Qed.
Lemma un_starts ts : starts_term (un ts) = starts_term ts.
Proof. destruct ts as [| [] ?]; reflexivity. Qed.
Lemma un_lambda_args n : commutes (map unspan_ident) (lambda_args n).
Proof.
  induction n as [| n IH]; intros ts; [reflexivity |]. cbn [lambda_args]. rewrite un_ident. destruct (parse_ident ts) as [[i ts'] |]; [| reflexivity]. unfold both at 1. cbn [option_map fst snd].
  destruct ts' as [| [j | v sp | c sp | sp l | sp] ts']; try reflexivity.
  - cbn [map unspan_token]. specialize (IH (TkIdent j :: ts')). cbn [map unspan_token] in IH. rewrite IH. now destruct (lambda_args n (TkIdent j :: ts')) as [[? ?] |].
  - cbn [map unspan_token]. now destruct (N.eqb _ _).
Qed.
Lemma un_let_args n : commutes (map unspan_ident) (let_args n).
Proof.
  induction n as [| n IH]; intros ts; [reflexivity |]. cbn [let_args]. destruct ts as [| [j | v sp | c sp | sp l | sp] ts]; try reflexivity.
  - cbn [map unspan_token]. pose proof (un_ident (TkIdent j :: ts)) as H. cbn [map unspan_token] in H. rewrite H. clear H. destruct (parse_ident _) as [[i ts'] |]; [| reflexivity]. unfold both at 1. cbn [option_map fst snd]. rewrite IH. now destruct (let_args n _) as [[? ?] |].
  - cbn [map unspan_token]. now destruct (N.eqb _ _).
Qed.
Lemma un_separated item c n : commutes unspan_node item -> commutes (map unspan_pair) (separated item c n).
Proof.
  intros Hi. induction n as [| n IH]; intros ts; [reflexivity |]. cbn [separated]. rewrite Hi. destruct (item ts) as [[x ts'] |]; [| reflexivity]. unfold both at 1. cbn [option_map fst snd]. rewrite un_punct. destruct (parse_punct c ts') as [[sp ts''] |]; [| reflexivity].
  unfold both at 1. cbn [option_map fst snd]. rewrite IH. now destruct (separated item c n ts'') as [[? ?] |].
Qed.
Lemma un_call_terms item n : commutes unspan_node item -> commutes (map unspan_node) (call_terms item n).
Proof.
  intros Hi. induction n as [| n IH]; intros ts; [reflexivity |]. cbn [call_terms]. rewrite Hi. destruct (item ts) as [[x ts'] |]; [| reflexivity]. unfold both at 1. cbn [option_map fst snd]. rewrite un_starts. destruct (starts_term ts'); [| reflexivity].
  rewrite IH. now destruct (call_terms item n ts') as [[? ?] |].
Qed.
Section Levels.
  Context (term : list token -> option (node * list token)) (Ht : commutes unspan_node term).
  Lemma un_call : commutes unspan_node (parse_call term).
  Proof. intros ts. unfold parse_call. rewrite map_length, (un_call_terms term _ Ht). now destruct (call_terms _ _ _) as [[? ?] |]. Qed.
  Lemma un_cat : commutes unspan_node (parse_cat term).
  Proof. intros ts. unfold parse_cat. rewrite map_length, (un_separated _ _ _ un_call). now destruct (separated _ _ _ _) as [[? ?] |]. Qed.
  Lemma un_labelled : commutes unspan_node (parse_labelled term).
  Proof.
    intros ts. unfold parse_labelled. rewrite un_cat. destruct (parse_cat term ts) as [[c ts'] |]; [| reflexivity]. unfold both at 1. cbn [option_map fst snd]. rewrite un_punct. destruct (parse_punct _ ts') as [[sp ts''] |]; [| reflexivity].
    unfold both at 1. cbn [option_map fst snd]. rewrite un_any. now destruct (parse_any ts'') as [[? ?] |].
  Qed.
  Lemma un_alt : commutes unspan_node (parse_alt term).
  Proof. intros ts. unfold parse_alt. rewrite map_length, (un_separated _ _ _ un_labelled). now destruct (separated _ _ _ _) as [[? ?] |]. Qed.
  Lemma un_lambda : commutes unspan_node (parse_lambda term).
  Proof.
    intros ts. unfold parse_lambda. rewrite un_punct, map_length. destruct (parse_punct _ ts) as [[l ts1] |]; [| reflexivity]. unfold both at 1. cbn [option_map fst snd]. rewrite un_lambda_args. destruct (lambda_args _ ts1) as [[args ts2] |]; [| reflexivity].
    unfold both at 1. cbn [option_map fst snd]. rewrite un_punct. destruct (parse_punct _ ts2) as [[r ts3] |]; [| reflexivity]. unfold both at 1. cbn [option_map fst snd]. rewrite un_alt. now destruct (parse_alt term ts3) as [[? ?] |].
  Qed.
  Lemma un_expr : commutes unspan_node (parse_expr term).
  Proof.
    intros ts. pose proof (un_alt ts) as A. pose proof (un_lambda ts) as L. unfold parse_expr. destruct ts as [| [j | v sp | c sp | sp l | sp] ts]; cbn [map unspan_token] in *; try exact A. now destruct (N.eqb _ _).
  Qed.
End Levels.
Lemma un_term n : commutes unspan_node (parse_term n).
Proof.
  induction n as [| n IH]; intros ts; [reflexivity |]. cbn [parse_term]. destruct ts as [| [j | v sp | c sp | sp l | sp] ts]; cbn [map unspan_token]; try reflexivity.
  - rewrite un_word. now destruct (is_word _ j).
  - destruct (N.eqb _ _); [| reflexivity]. rewrite IH. now destruct (parse_term n ts) as [[? ?] |].
  - rewrite (un_expr _ IH). destruct (parse_expr _ l) as [[e [| t r]] |]; reflexivity.
Qed.
Lemma un_stmt n : commutes unspan_stmt (parse_stmt n).
Proof.
  induction n as [| n IH]; intros ts; [reflexivity |]. cbn [parse_stmt].
  assert (K : match un ts with t :: _ => is_kw "let" t | [] => false end = match ts with t :: _ => is_kw "let" t | [] => false end) by (destruct ts as [| [] ?]; reflexivity). rewrite K. clear K.
  destruct (match ts with t :: _ => is_kw "let" t | [] => false end); rewrite un_kw.
  - destruct (parse_kw _ ts) as [[k ts1] |]; [| reflexivity]. unfold both at 1. cbn [option_map fst snd]. rewrite un_any. destruct (parse_any ts1) as [[nm ts2] |]; [| reflexivity]. unfold both at 1. cbn [option_map fst snd].
    rewrite map_length, un_let_args. destruct (let_args _ ts2) as [[args ts3] |]; [| reflexivity]. unfold both at 1. cbn [option_map fst snd]. rewrite un_punct. destruct (parse_punct _ ts3) as [[eq ts4] |]; [| reflexivity]. unfold both at 1. cbn [option_map fst snd].
    rewrite (un_expr _ (un_term n)). destruct (parse_expr _ ts4) as [[e ts5] |]; [| reflexivity]. unfold both at 1. cbn [option_map fst snd]. rewrite un_punct. destruct (parse_punct _ ts5) as [[semi ts6] |]; [| reflexivity]. unfold both at 1. cbn [option_map fst snd].
    rewrite IH. now destruct (parse_stmt n ts6) as [[? ?] |].
  - destruct (parse_kw _ ts) as [[k ts1] |]; [| reflexivity]. unfold both at 1. cbn [option_map fst snd]. rewrite (un_expr _ (un_term n)). destruct (parse_expr _ ts1) as [[e ts2] |]; [| reflexivity]. unfold both at 1. cbn [option_map fst snd].
    rewrite un_punct. now destruct (parse_punct _ ts2) as [[? ?] |].
Qed.
Fixpoint token_ind' (P : token -> Prop) (H1 : forall i, P (TkIdent i)) (H2 : forall v sp, P (TkStr v sp)) (H3 : forall c sp, P (TkPunct c sp)) (H4 : forall sp ts, Forall P ts -> P (TkGroup sp ts)) (H5 : forall sp, P (TkOther sp)) (t : token) : P t :=
  match t with
  | TkIdent i => H1 i | TkStr v sp => H2 v sp | TkPunct c sp => H3 c sp
  | TkGroup sp ts => H4 sp ts ((fix go l : Forall P l := match l with [] => Forall_nil _ | x :: l' => Forall_cons _ (token_ind' P H1 H2 H3 H4 H5 x) (go l') end) ts)
  | TkOther sp => H5 sp
  end.
Lemma un_size t : token_size (unspan_token t) = token_size t.
Proof.
  induction t as [i | v sp | c sp | sp ts IH | sp] using token_ind'; try reflexivity. cbn [unspan_token token_size]. do 2 f_equal. rewrite map_map. f_equal. induction IH as [| t ts Ht _ IH]; cbn; [reflexivity |]. now rewrite Ht, IH.
Qed.
Theorem un_program ts : parse_program (un ts) = option_map unspan_stmt (parse_program ts).
Proof.
  unfold parse_program. assert (E : tokens_size (un ts) = tokens_size ts) by (unfold tokens_size; now rewrite map_map, (map_ext _ _ un_size)). rewrite E, un_stmt. destruct (parse_stmt _ ts) as [[s [| t r]] |]; reflexivity.
Qed.

(** ** The conversion *)
Lemma kind_unspan n : n_kind (unspan_name n) = n_kind n.
Proof. reflexivity. Qed.
Lemma text_unspan n : name_text (unspan_name n) = name_text n.
Proof. now destruct n as [[i | s] k]. Qed.
Lemma content_unspan a b : content_eqb (unspan_content a) (unspan_content b) = content_eqb a b.
Proof. destruct a, b; reflexivity. Qed.
Lemma name_eqb_unspan a b : name_eqb (unspan_name a) (unspan_name b) = name_eqb a b.
Proof. unfold name_eqb. cbn. now rewrite content_unspan. Qed.
Notation mape := (map_expr unspan_name).
Notation uctx := (map unspan_content).
Definition same_conv {A} (k : A -> A) (m m' : conv A) : Prop := forall ctx,
  res_both k (map_convert_error unspan_name) (fst (m' (uctx ctx))) = res_both k (map_convert_error unspan_name) (fst (m ctx)) /\ snd (m' (uctx ctx)) = uctx (snd (m ctx)).

Lemma same_ret {A} (k : A -> A) x x' : k x' = k x -> same_conv k (ret x) (ret x').
Proof. intros H ctx. cbn. now rewrite H. Qed.
Lemma same_fail {A} (k : A -> A) e e' : map_convert_error unspan_name e' = map_convert_error unspan_name e -> same_conv k (fail e) (fail e').
Proof. intros H ctx. cbn. now rewrite H. Qed.
Lemma same_bind {A B} (k : A -> A) (h : B -> B) m m' (g g' : A -> conv B) : same_conv k m m' -> (forall x x', k x' = k x -> same_conv h (g x) (g' x')) -> same_conv h (bind m g) (bind m' g').
Proof.
  intros Hm Hg ctx. unfold bind. destruct (Hm ctx) as [H1 H2]. destruct (m ctx) as [[x | e | |] c1], (m' (uctx ctx)) as [[x' | e' | |] c1']; cbn in H1, H2; try discriminate H1; subst; auto.
  - apply Hg. now injection H1.
  - cbn. split; [congruence | reflexivity].
Qed.
Lemma same_with {A} (k : A -> A) names m m' : same_conv k m m' -> same_conv k (with_variables names m) (with_variables (map unspan_name names) m').
Proof.
  intros Hm ctx. unfold with_variables. assert (E : rev (map n_content (map unspan_name names)) ++ uctx ctx = uctx (rev (map n_content names) ++ ctx)) by (rewrite map_app, map_rev, !map_map; reflexivity).
  rewrite E, map_length. destruct (Hm (rev (map n_content names) ++ ctx)) as [H1 H2]. destruct (m _) as [r c1], (m' _) as [r' c1']. cbn in H1, H2. subst c1'. rewrite map_length.
  destruct (Nat.ltb _ _); cbn; [auto |]. split; [exact H1 |]. now rewrite skipn_map.
Qed.
Lemma un_lookup c ctx : position (unspan_content c) (uctx ctx) = position c ctx.
Proof. induction ctx as [| x ctx IH]; cbn; [reflexivity |]. rewrite content_unspan, IH. reflexivity. Qed.
Lemma res_both_id {A E F} (h : E -> F) (x : res A E) : res_both (fun a => a) h x = match x with Ok a => Ok a | Err e => Err (h e) | Panic => Panic | OutOfFuel => OutOfFuel end.
Proof. now destruct x. Qed.
Definition mapp (y : span * nexpr) : span * nexpr := (call_site, mape (snd y)).
Lemma mape_e_name e e' : mape e' = mape e -> option_map unspan_name (e_name e') = option_map unspan_name (e_name e).
Proof. intros H. apply (f_equal e_name) in H. now rewrite !map_e_name in H. Qed.
Lemma same_args (cv cv' : node -> conv nexpr) l : Forall (fun n => same_conv mape (cv n) (cv' (unspan_node n))) l -> same_conv (map mape) (convert_args cv l) (convert_args cv' (map unspan_node l)).
Proof.
  induction 1 as [| n l Hn _ IH]; cbn [map convert_args]; [now apply same_ret |]. eapply same_bind; [exact Hn |]. intros x x' Hx. eapply same_bind; [exact IH |]. intros y y' Hy. apply same_ret. cbn. congruence.
Qed.
Lemma same_rest (cv cv' : node -> conv nexpr) l : Forall (fun n => same_conv mape (cv (fst n)) (cv' (unspan_node (fst n)))) l -> forall p p', same_conv (map mapp) (convert_rest cv p l) (convert_rest cv' p' (map unspan_pair l)).
Proof.
  induction 1 as [| [n q] l Hn _ IH]; intros p p'; cbn [map convert_rest]; [now apply same_ret |]. unfold unspan_pair at 1. cbn [fst snd] in *. eapply same_bind; [exact Hn |]. intros x x' Hx. eapply same_bind; [apply IH |]. intros y y' Hy. apply same_ret. cbn. unfold mapp at 1 3. cbn. congruence.
Qed.
Theorem un_convert join join' n : same_conv mape (convert join n) (convert join' (unspan_node n)).
Proof.
  induction n as [sp | i | v sp | b t IH | sp e IH | ts IH | ps IH | c l IH | ps IH | l args r e IH] using node_ind'; cbn [convert unspan_node].
  - now apply same_ret.
  - intros ctx. unfold lookup. cbn [new_variable n_content]. change (Spanned (unspan_ident i)) with (unspan_content (Spanned i)). rewrite un_lookup. destruct (position _ ctx); split; reflexivity.
  - now apply same_ret.
  - eapply same_bind; [exact IH |]. intros x x' Hx. apply same_ret. cbn. unfold map_ann. cbn. congruence.
  - exact IH.
  - destruct ts as [| t ts]; [now apply same_fail |]. inversion IH; subst. cbn [map]. eapply same_bind; [eassumption |]. intros x x' Hx. eapply same_bind; [apply same_args; eassumption |]. intros y y' Hy.
    destruct y, y'; try discriminate Hy; apply same_ret; [exact Hx |]. cbn [map_expr]. unfold map_ann. cbn [a_name option_map]. congruence.
  - destruct ps as [| [x p] ps]; [now apply same_fail |]. inversion IH; subst. cbn [map]. cbn [fst snd] in *. eapply same_bind; [eassumption |]. intros y y' Hy. eapply same_bind; [apply (same_rest (convert join) (convert join')); eassumption |]. intros z z' Hz.
    destruct z, z'; try discriminate Hz; apply same_ret; [exact Hy |]. cbn [map_expr]. unfold map_ann. cbn [a_name option_map]. unfold mapp in Hz. congruence.
  - eapply same_bind; [exact IH |]. intros x x' Hx. apply same_ret. rewrite !map_set_ann2, !map_merge by reflexivity. rewrite (mape_e_name _ _ Hx), Hx. now destruct l as [[? ?] |].
  - destruct ps as [| [x p] ps]; [now apply same_fail |]. inversion IH; subst. cbn [map]. cbn [fst snd] in *. eapply same_bind; [eassumption |]. intros y y' Hy. eapply same_bind; [apply (same_rest (convert join) (convert join')); eassumption |]. intros z z' Hz.
    destruct z, z'; try discriminate Hz; apply same_ret; [exact Hy |]. cbn [map_expr]. unfold map_ann. cbn [a_name option_map]. unfold mapp in Hz. congruence.
  - assert (E : map (fun i => new_variable (Spanned i)) (map unspan_ident args) = map unspan_name (map (fun i => new_variable (Spanned i)) args)) by now rewrite !map_map.
    rewrite E. eapply same_bind; [apply same_with, IH |]. intros x x' Hx. apply same_ret. cbn [map_expr]. unfold map_ann. cbn [a_name option_map]. rewrite Hx, !map_map. reflexivity.
Qed.
Theorem un_convert_stmt join join' s : same_conv mape (convert_stmt join s) (convert_stmt join' (unspan_stmt s)).
Proof.
  induction s as [k e semi | k i args eq e semi next IH]; cbn [convert_stmt unspan_stmt].
  - eapply same_bind; [apply un_convert |]. intros x x' Hx. apply same_ret. rewrite !map_set_ann2, !map_merge by reflexivity. now rewrite (mape_e_name _ _ Hx), Hx.
  - assert (E : map (fun i => new_variable (Spanned i)) (map unspan_ident args) = map unspan_name (map (fun i => new_variable (Spanned i)) args)) by now rewrite !map_map.
    eapply (same_bind mape).
    + destruct args as [| x args]; [apply un_convert |]. cbn [map]. cbn [map] in E. rewrite E. eapply same_bind; [apply (same_with mape (new_variable (Spanned x) :: map (fun i => new_variable (Spanned i)) args)), un_convert |]. intros y y' Hy. apply same_ret. cbn [map_expr]. unfold map_ann. cbn [a_name option_map]. rewrite Hy. cbn [map]. rewrite !map_map. reflexivity.
    + intros x x' Hx. eapply (same_bind (fun u : unit => u)); [intros ctx; split; reflexivity |]. intros _ _ _. eapply same_bind; [exact IH |]. intros y y' Hy. apply same_ret. cbn [map_expr]. unfold map_ann. cbn [a_name option_map]. rewrite !map_set_name. now rewrite Hx, Hy.
Qed.
Corollary un_convert_program join join' s : res_both mape (map_convert_error unspan_name) (convert_program join' (unspan_stmt s)) = res_both mape (map_convert_error unspan_name) (convert_program join s).
Proof. unfold convert_program. destruct (un_convert_stmt join join' s []) as [H _]. exact H. Qed.

(** ** The rest of the compiler *)
Definition back_end (cs : casing) (fuel : nat) (e : nexpr) : res (list entry * nat * (list nat * (rstr * tname))) main_error :=
  res_bind (res_map_err MReduce (reduce fuel e)) (fun term =>
  res_bind (res_map_err MType (typecheck term)) (fun typed =>
  match generate cs typed with
  | None => Panic
  | Some (backend, id) => match emit_code None id backend with None => Panic | Some code => Ok (data backend, id, code) end
  end)).
Lemma chomp_back_end join cs fuel ts : chomp join cs fuel ts =
  match parse_program ts with None => Err MParse | Some s => res_bind (res_map_err MConvert (convert_program join s)) (back_end cs fuel) end.
Proof. reflexivity. Qed.
Lemma back_end_map (f : name -> name) (P : name -> Prop) cs fuel e : (forall n, n_kind (f n) = n_kind n) -> (forall n, name_text (f n) = name_text n) ->
  (forall a b, P a -> P b -> name_eqb (f a) (f b) = name_eqb a b) -> (forall v r, reduce fuel e = Ok v -> typecheck v = Ok r -> key_ok P r) ->
  back_end cs fuel (map_expr f e) = res_both (fun c => c) (map_main_error f) (back_end cs fuel e).
Proof.
  intros Hk Ht Heq HP. unfold back_end. rewrite (map_reduce f Hk). destruct (reduce fuel e) as [v | | |] eqn:Er; try reflexivity. cbn [res_both res_map_err res_bind].
  rewrite (map_typecheck f Hk). destruct (typecheck v) as [r | | |] eqn:Et; try reflexivity. cbn [res_both res_map_err res_bind].
  rewrite (map_generate f P Ht Heq cs r (HP v r eq_refl Et)). destruct (generate cs r) as [[b id] |]; [| reflexivity]. cbn [option_map fst snd]. rewrite map_emit. now destruct (emit_code None id b).
Qed.
Lemma back_end_unspan cs fuel e : back_end cs fuel (mape e) = without_positions (back_end cs fuel e).
Proof.
  apply (back_end_map unspan_name (fun _ => True)); [reflexivity | exact text_unspan | intros; apply name_eqb_unspan |]. intros v r _ _. unfold key_ok. apply Forall_forall. auto.
Qed.
Theorem chomp_unspan join join' cs fuel ts ts' : un ts = un ts' -> without_positions (chomp join cs fuel ts) = without_positions (chomp join' cs fuel ts').
Proof.
  enough (G : forall join join' ts, without_positions (chomp join cs fuel ts) = without_positions (chomp join' cs fuel (un ts))) by (intros E; now rewrite (G join join ts), (G join' join ts'), E).
  clear. intros join join' ts. rewrite !chomp_back_end, un_program. destruct (parse_program ts) as [s |]; [| reflexivity]. cbn [option_map]. pose proof (un_convert_program join join' s) as H.
  destruct (convert_program join s) as [e | x | |], (convert_program join' (unspan_stmt s)) as [e' | x' | |]; cbn in H; try discriminate H; try reflexivity; injection H as H; cbn [res_map_err res_bind].
  - now rewrite <- !back_end_unspan, H.
  - cbn. now rewrite H.
Qed.
