(** * SpecScope: the meaning of a nibble program: lexical scoping, written on
    the syntax tree. *)
From Coq Require Import String.
From Verif Require Export SpecSyntax SpecBeta.
From Coq Require Import List.
Open Scope list_scope.

(** The same word, both or none written with [r#]. *)
Definition same (x y : ident) : Prop := id_raw x = id_raw y /\ id_sym x = id_sym y.
Definition sameb (x y : ident) : bool := Bool.eqb (id_raw x) (id_raw y) && rstr_eqb (id_sym x) (id_sym y).

(** A scope lists the declarations in force, the innermost first.  A name
    denotes the innermost declaration of the same word. *)
Definition denotes (scope : list ident) (x : ident) (i : nat) : Prop :=
  (exists y, nth_error scope i = Some y /\ same x y)
  /\ forall j z, j < i -> nth_error scope j = Some z -> ~ same x z.

(** The expression a phrase stands for.  Parentheses and labels have no
    meaning; a call, concatenation or alternation of one item is that item. *)
Inductive means : list ident -> node -> lexpr -> Prop :=
| means_eps S sp : means S (NEpsilon sp) LEps
| means_ident S x i : denotes S x i -> means S (NIdent x) (LVar i)
| means_lit S v sp : means S (NLiteral v sp) (LLit v)
| means_fix S b t e : means S t e -> means S (NFix b t) (LFix e)
| means_paren S sp n e : means S n e -> means S (NParen sp n) e
| means_call1 S t e : means S t e -> means S (NCall [t]) e
| means_call S t ts f args : means S t f -> Forall2 (means S) ts args -> args <> [] -> means S (NCall (t :: ts)) (LCall f args)
| means_cat1 S x p e : means S x e -> means S (NCatP [(x, p)]) e
| means_cat S ps l : Forall2 (means S) (map fst ps) l -> 2 <= length l -> means S (NCatP ps) (LCat l)
| means_labelled S c l e : means S c e -> means S (NLabelled c l) e
| means_alt1 S x p e : means S x e -> means S (NAltP [(x, p)]) e
| means_alt S ps l : Forall2 (means S) (map fst ps) l -> 2 <= length l -> means S (NAltP ps) (LAlt l)
| means_lambda S l args r n e : means (rev args ++ S) n e -> means S (NLambda l args r n) (LLam (length args) e).
Inductive means_stmt : list ident -> stmt -> lexpr -> Prop :=
| means_goal S k n semi e : means S n e -> means_stmt S (SGoal k n semi) e
| means_let S k x eq n semi next e b :
    means S n e -> means_stmt (x :: S) next b -> means_stmt S (SLet k x [] eq n semi next) (LLet e b)
| means_fun S k x arg args eq n semi next e b :
    means (rev (arg :: args) ++ S) n e -> means_stmt (x :: S) next b ->
    means_stmt S (SLet k x (arg :: args) eq n semi next) (LLet (LLam (length (arg :: args)) e) b).

(** The occurrences of names that no declaration binds, in source order. *)
Fixpoint undeclared (scope : list ident) (n : node) : list ident :=
  match n with
  | NEpsilon _ | NLiteral _ _ => []
  | NIdent x => if existsb (sameb x) scope then [] else [x]
  | NFix _ t => undeclared scope t
  | NParen _ e => undeclared scope e
  | NCall ts => flat_map (undeclared scope) ts
  | NCatP ps | NAltP ps => flat_map (fun x => undeclared scope (fst x)) ps
  | NLabelled c _ => undeclared scope c
  | NLambda _ args _ e => undeclared (rev args ++ scope) e
  end.
Fixpoint undeclared_stmt (scope : list ident) (s : stmt) : list ident :=
  match s with
  | SGoal _ e _ => undeclared scope e
  | SLet _ x args _ e _ next => undeclared (rev args ++ scope) e ++ undeclared_stmt (x :: scope) next
  end.
(** The names a program declares by [let], the last first. *)
Fixpoint let_names (s : stmt) : list ident :=
  match s with SGoal _ _ _ => [] | SLet _ x _ _ _ _ next => let_names next ++ [x] end.

(** ** Renaming: the same program but for the words used for its variables,
    the positions and the labels.  [l] pairs the declarations in force. *)
Inductive bound_alike : list (ident * ident) -> ident -> ident -> Prop :=
| alike_here a b l x y : same x a -> same y b -> bound_alike ((a, b) :: l) x y
| alike_there a b l x y : ~ same x a -> ~ same y b -> bound_alike l x y -> bound_alike ((a, b) :: l) x y.
Inductive alpha : list (ident * ident) -> node -> node -> Prop :=
| alpha_eps l s t : alpha l (NEpsilon s) (NEpsilon t)
| alpha_ident l x y : bound_alike l x y -> alpha l (NIdent x) (NIdent y)
| alpha_lit l v s t : alpha l (NLiteral v s) (NLiteral v t)
| alpha_fix l s t m n : alpha l m n -> alpha l (NFix s m) (NFix t n)
| alpha_paren l s t m n : alpha l m n -> alpha l (NParen s m) (NParen t n)
| alpha_call l ms ns : Forall2 (alpha l) ms ns -> alpha l (NCall ms) (NCall ns)
| alpha_cat l ps qs : Forall2 (alpha l) (map fst ps) (map fst qs) -> alpha l (NCatP ps) (NCatP qs)
| alpha_labelled l m n a b : alpha l m n -> alpha l (NLabelled m a) (NLabelled n b)
| alpha_alt l ps qs : Forall2 (alpha l) (map fst ps) (map fst qs) -> alpha l (NAltP ps) (NAltP qs)
| alpha_lambda l s1 s2 t1 t2 xs ys m n :
    length xs = length ys -> alpha (rev (combine xs ys) ++ l) m n -> alpha l (NLambda s1 xs t1 m) (NLambda s2 ys t2 n).
Inductive alpha_stmt : list (ident * ident) -> stmt -> stmt -> Prop :=
| alpha_goal l s1 s2 t1 t2 m n : alpha l m n -> alpha_stmt l (SGoal s1 m t1) (SGoal s2 n t2)
| alpha_let l k1 k2 x y xs ys e1 e2 m n t1 t2 next1 next2 :
    length xs = length ys -> alpha (rev (combine xs ys) ++ l) m n -> alpha_stmt ((x, y) :: l) next1 next2 ->
    alpha_stmt l (SLet k1 x xs e1 m t1 next1) (SLet k2 y ys e2 n t2 next2).

(** ** Names: the name a phrase gives to the expression it stands for. *)
Fixpoint given (n : node) : option name :=
  match n with
  | NIdent x => Some (new_variable (Spanned x))
  | NParen _ e => given e
  | NCall [t] => given t
  | NCatP [(x, _)] | NAltP [(x, _)] => given x
  | NLabelled _ (Some (_, l)) => Some (new_label (Spanned l))
  | NLabelled c None => given c
  | _ => None
  end.
(** Labels come before lets, and lets before variables. *)
Definition rank (n : name) : nat := match n_kind n with KLabel => 2 | KLet => 1 | KVariable => 0 end.
(** The first name of the highest rank. *)
Definition best (l : list (option name)) (n : name) : Prop :=
  exists l1 l2, l = l1 ++ Some n :: l2
    /\ (forall m, In (Some m) l1 -> rank m < rank n) /\ (forall m, In (Some m) l2 -> rank m <= rank n).

(** ** Positions *)
(** The position of a phrase with these tokens: from the first to the last one
    where positions can be joined, else that of the first. *)
Definition extent (join : span -> span -> option span) (ts : list token) (sp : span) : Prop :=
  (exists t, ts = [t] /\ sp = token_span t)
  \/ (exists t ts' u, ts = t :: ts' ++ [u] /\ sp = match join (token_span t) (token_span u) with Some s => s | None => token_span t end).
(** An expression carries the positions of the phrase it stands for: each part
    that of its own phrase (a labelled one including its label, a parenthesised
    one without the parentheses), and each separator its own. *)
Inductive located (join : span -> span -> option span) : node -> nexpr -> Prop :=
| loc_eps sp nm : located join (NEpsilon sp) (EEps (Ann nm sp))
| loc_lit v sp nm : located join (NLiteral v sp) (ELit (Ann nm sp) v)
| loc_ident x nm i : located join (NIdent x) (EVar (Ann nm (id_span x)) i)
| loc_fix b t e nm sp : located join t e -> extent join (to_tokens (NFix b t)) sp -> located join (NFix b t) (EFix (Ann nm sp) e)
| loc_paren sp n e : located join n e -> located join (NParen sp n) e
| loc_call1 t e : located join t e -> located join (NCall [t]) e
| loc_call t ts f args nm sp : located join t f -> Forall2 (located join) ts args -> args <> [] ->
    extent join (to_tokens (NCall (t :: ts))) sp -> located join (NCall (t :: ts)) (ECall (Ann nm sp) f args)
| loc_cat1 x p e : located join x e -> located join (NCatP [(x, p)]) e
| loc_cat ps first rest nm sp : Forall2 (located join) (map fst ps) (first :: map snd rest) -> rest <> [] ->
    map snd ps = map (fun r => Some (fst r)) rest ++ [None] ->
    extent join (to_tokens (NCatP ps)) sp -> located join (NCatP ps) (ECat (Ann nm sp) first rest)
| loc_labelled c l e nm sp : located join c e -> extent join (to_tokens (NLabelled c l)) sp ->
    located join (NLabelled c l) (set_ann (Ann nm sp) e)
| loc_alt1 x p e : located join x e -> located join (NAltP [(x, p)]) e
| loc_alt ps first rest nm sp : Forall2 (located join) (map fst ps) (first :: map snd rest) -> rest <> [] ->
    map snd ps = map (fun r => Some (fst r)) rest ++ [None] ->
    extent join (to_tokens (NAltP ps)) sp -> located join (NAltP ps) (EAlt (Ann nm sp) first rest)
| loc_lambda l args r n e nm names sp : located join n e -> extent join (to_tokens (NLambda l args r n)) sp ->
    located join (NLambda l args r n) (ELam (Ann nm sp) names e).
Inductive located_stmt (join : span -> span -> option span) : stmt -> nexpr -> Prop :=
| loc_goal k n semi e nm sp : located join n e -> extent join (stmt_tokens (SGoal k n semi)) sp ->
    located_stmt join (SGoal k n semi) (set_ann (Ann nm sp) e)
| loc_let k x eq n semi next e nm b nm' nm'' sp : located join n e -> located_stmt join next b ->
    extent join (stmt_tokens (SLet k x [] eq n semi next)) sp ->
    located_stmt join (SLet k x [] eq n semi next) (ELet (Ann nm sp) nm' (set_name nm'' e) b)
| loc_fun k x arg args eq n semi next e nm b nm' nm'' names sp : located join n e -> located_stmt join next b ->
    extent join (stmt_tokens (SLet k x (arg :: args) eq n semi next)) sp ->
    located_stmt join (SLet k x (arg :: args) eq n semi next) (ELet (Ann nm sp) nm' (ELam (Ann nm'' sp) names e) b).
