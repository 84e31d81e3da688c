(** * SpecAuto: how nibble programs are written down, and when two conversions
    of a program agree.  Nothing here mentions the generated parser. *)
From Coq Require Import String.
From Verif Require Export SpecSyntax Convert.
From Coq Require Import List.
Open Scope list_scope.

(** ** Characters *)
(** Unicode Pattern_White_Space *)
Definition white (c : char) : Prop := In c [9; 10; 11; 12; 13; 32; 133; 8206; 8207; 8232; 8233]%N.
Definition gap (w : rstr) : Prop := Forall white w.
Definition letter (c : char) : Prop := (97 <= c <= 122 \/ 65 <= c <= 90)%N.
Definition word_char (c : char) : Prop := letter c \/ c = 95%N \/ (48 <= c <= 57)%N.
(** A letter, then letters, digits and underscores. *)
Definition word (w : rstr) : Prop := exists c cs, w = c :: cs /\ letter c /\ Forall word_char cs.

Definition hex_digit (c : char) : Prop := (48 <= c <= 57 \/ 97 <= c <= 102 \/ 65 <= c <= 70)%N.
Definition digit_value (c : char) : N := (if c <=? 57 then c - 48 else if c <=? 70 then c - 55 else c - 87)%N.
Definition hex_number (ds : rstr) : N := fold_left (fun n c => 16 * n + digit_value c)%N ds 0%N.
(** The Unicode scalar values. *)
Definition scalar (n : N) : Prop := (n < 55296 \/ 57344 <= n <= 1114111)%N.

(** A character of a string literal, by its number: as itself, as an escape of
    one letter, in two digits ([\x]) or in one to six ([\u]). *)
Inductive char_text : N -> rstr -> Prop :=
| text_plain c : (32 <= c <= 126)%N -> c <> 34%N -> c <> 92%N -> char_text c [c]
| text_escape e c : In (e, c) [(34, 34); (39, 39); (110, 10); (114, 13); (116, 9); (92, 92); (48, 0)]%N -> char_text c [92%N; e]
| text_byte o h : (48 <= o <= 55)%N -> hex_digit h -> char_text (hex_number [o; h]) [92%N; 120%N; o; h]
| text_unicode ds : ds <> [] -> length ds <= 6 -> Forall hex_digit ds -> char_text (hex_number ds) ([92%N; 117%N; 123%N] ++ ds ++ [125%N]).
Inductive chars_text : list N -> rstr -> Prop :=
| chars_nil : chars_text [] []
| chars_cons c u v w : char_text c u -> chars_text v w -> chars_text (c :: v) (u ++ w).

(** ** Tokens *)
(** Two tokens that need white space between them: one that ends a term and
    one that starts a term. *)
Definition ends (t : token) : Prop := match t with TkIdent _ | TkStr _ _ | TkGroup _ _ => True | _ => False end.
Definition starts (t : token) : Prop := match t with TkIdent _ | TkStr _ _ | TkGroup _ _ => True | TkPunct c _ => c = 33%N | _ => False end.
Definition apart (t t' : token) (g : rstr) : Prop := gap g /\ (ends t -> starts t' -> g <> []).

(** The texts of a token and of a sequence of tokens. *)
Inductive token_text : token -> rstr -> Prop :=
| text_word i : id_raw i = false -> token_text (TkIdent i) (id_sym i)
| text_str v sp w : chars_text v w -> token_text (TkStr v sp) ([34%N] ++ w ++ [34%N])
| text_punct c sp : token_text (TkPunct c sp) [c]
| text_group sp ts g w g' : gap g -> tokens_text ts w -> gap g' -> token_text (TkGroup sp ts) (lit "(" ++ g ++ w ++ g' ++ lit ")")
with tokens_text : list token -> rstr -> Prop :=
| text_one t w : token_text t w -> tokens_text [t] w
| text_more t u g t' ts w : token_text t u -> apart t t' g -> tokens_text (t' :: ts) w -> tokens_text (t :: t' :: ts) (u ++ g ++ w).
Scheme token_text_mut := Induction for token_text Sort Prop
  with tokens_text_mut := Induction for tokens_text Sort Prop.

(** ** Programs *)
(** The grammar of SpecSyntax, but every name is a [word] (reserved or not)
    and no literal is empty. *)
Definition named (i : ident) : Prop := id_raw i = false /\ word (id_sym i).
Inductive shape : level -> node -> Prop :=
| shape_eps sp : shape LvTerm (NEpsilon sp)
| shape_ident i : named i -> shape LvTerm (NIdent i)
| shape_lit v sp : v <> [] -> shape LvTerm (NLiteral v sp)
| shape_fix b t : shape LvTerm t -> shape LvTerm (NFix b t)
| shape_paren sp e : shape LvExpr e -> shape LvTerm (NParen sp e)
| shape_call t ts : shape LvTerm t -> Forall (shape LvTerm) ts -> shape LvCall (NCall (t :: ts))
| shape_cat ps : punctuated (shape LvCall) ps -> shape LvCat (NCatP ps)
| shape_labelled c l : shape LvCat c -> (forall sp i, l = Some (sp, i) -> named i) -> shape LvLabelled (NLabelled c l)
| shape_alt ps : punctuated (shape LvLabelled) ps -> shape LvAlt (NAltP ps)
| shape_expr e : shape LvAlt e -> shape LvExpr e
| shape_lambda l arg args r e : named arg -> Forall named args -> shape LvAlt e -> shape LvExpr (NLambda l (arg :: args) r e).
Inductive shape_stmt : stmt -> Prop :=
| shape_goal k e semi : shape LvExpr e -> shape_stmt (SGoal k e semi)
| shape_let k nm args eq e semi next :
    named nm -> Forall named args -> shape LvExpr e -> shape_stmt next -> shape_stmt (SLet k nm args eq e semi next).

(** Every character of every literal is one. *)
Inductive printable : node -> Prop :=
| printable_eps sp : printable (NEpsilon sp)
| printable_ident i : printable (NIdent i)
| printable_lit v sp : Forall scalar v -> printable (NLiteral v sp)
| printable_fix b t : printable t -> printable (NFix b t)
| printable_paren sp e : printable e -> printable (NParen sp e)
| printable_call ts : Forall printable ts -> printable (NCall ts)
| printable_cat ps : Forall (fun p => printable (fst p)) ps -> printable (NCatP ps)
| printable_labelled c l : printable c -> printable (NLabelled c l)
| printable_alt ps : Forall (fun p => printable (fst p)) ps -> printable (NAltP ps)
| printable_lambda l args r e : printable e -> printable (NLambda l args r e).
Fixpoint printable_stmt (s : stmt) : Prop :=
  match s with
  | SGoal _ e _ => printable e
  | SLet _ _ _ _ e _ next => printable e /\ printable_stmt next
  end.

(** No parameter is a reserved word. *)
Inductive unreserved : node -> Prop :=
| unreserved_eps sp : unreserved (NEpsilon sp)
| unreserved_ident i : unreserved (NIdent i)
| unreserved_lit v sp : unreserved (NLiteral v sp)
| unreserved_fix b t : unreserved t -> unreserved (NFix b t)
| unreserved_paren sp e : unreserved e -> unreserved (NParen sp e)
| unreserved_call ts : Forall unreserved ts -> unreserved (NCall ts)
| unreserved_cat ps : Forall (fun p => unreserved (fst p)) ps -> unreserved (NCatP ps)
| unreserved_labelled c l : unreserved c -> unreserved (NLabelled c l)
| unreserved_alt ps : Forall (fun p => unreserved (fst p)) ps -> unreserved (NAltP ps)
| unreserved_lambda l args r e : Forall parameter args -> unreserved e -> unreserved (NLambda l args r e).
Fixpoint unreserved_stmt (s : stmt) : Prop :=
  match s with
  | SGoal _ e _ => unreserved e
  | SLet _ _ args _ e _ next => Forall parameter args /\ unreserved e /\ unreserved_stmt next
  end.

(** The texts of a program: white space may stand between any two tokens, and
    must stand after [let] and [match]. *)
Inductive stmt_text : stmt -> rstr -> Prop :=
| text_goal k e semi g1 w g2 g3 :
    gap g1 -> g1 <> [] -> tokens_text (to_tokens e) w -> gap g2 -> gap g3 ->
    stmt_text (SGoal k e semi) (lit "match" ++ g1 ++ w ++ g2 ++ lit ";" ++ g3)
| text_let k nm args eq e semi next g1 ns g2 g3 w g4 g5 u :
    gap g1 -> g1 <> [] -> tokens_text (map TkIdent (nm :: args)) ns -> gap g2 -> gap g3 -> tokens_text (to_tokens e) w -> gap g4 -> gap g5 ->
    stmt_text next u ->
    stmt_text (SLet k nm args eq e semi next) (lit "let" ++ g1 ++ ns ++ g2 ++ lit "=" ++ g3 ++ w ++ g4 ++ lit ";" ++ g5 ++ u).
Definition program_text (s : stmt) (w : rstr) : Prop := exists g u, gap g /\ stmt_text s u /\ w = g ++ u.

(** ** Agreement *)
(** The same name: one front end keeps the text, the other the identifier. *)
Inductive same_name : name -> name -> Prop :=
| same_text i k : id_raw i = false -> same_name (Name (Spanless (id_sym i)) k) (Name (Spanned i) k).
Inductive same_oname : option name -> option name -> Prop :=
| same_no_name : same_oname None None
| same_some_name a b : same_name a b -> same_oname (Some a) (Some b).
(** The same expression with the same names; spans are not compared. *)
Definition same_ann (a b : ann) : Prop := same_oname (a_name a) (a_name b).
Inductive same_expr : nexpr -> nexpr -> Prop :=
| same_eps a b : same_ann a b -> same_expr (EEps a) (EEps b)
| same_lit a b s : same_ann a b -> same_expr (ELit a s) (ELit b s)
| same_cat a b x y l m : same_ann a b -> same_expr x y -> Forall2 (fun p q => same_expr (snd p) (snd q)) l m -> same_expr (ECat a x l) (ECat b y m)
| same_alt a b x y l m : same_ann a b -> same_expr x y -> Forall2 (fun p q => same_expr (snd p) (snd q)) l m -> same_expr (EAlt a x l) (EAlt b y m)
| same_fix a b x y : same_ann a b -> same_expr x y -> same_expr (EFix a x) (EFix b y)
| same_var a b i : same_ann a b -> same_expr (EVar a i) (EVar b i)
| same_call a b x y l m : same_ann a b -> same_expr x y -> Forall2 same_expr l m -> same_expr (ECall a x l) (ECall b y m)
| same_lam a b ns ms x y : same_ann a b -> Forall2 same_name ns ms -> same_expr x y -> same_expr (ELam a ns x) (ELam b ms y)
| same_let a b n m x y x' y' : same_ann a b -> same_name n m -> same_expr x y -> same_expr x' y' -> same_expr (ELet a n x x') (ELet b m y y').
(** The same program, but the second calls its goal [Ast] if the goal has no
    other name. *)
Definition goal_name (o : option name) : option name := match o with Some n => Some n | None => Some (new_variable (Spanless (lit "Ast"))) end.
Inductive same_program : nexpr -> nexpr -> Prop :=
| same_goal e x sp : same_expr e x -> same_program e (set_ann (Ann (goal_name (e_name x)) sp) x)
| same_binding a b n m x y e e' : same_ann a b -> same_name n m -> same_expr x y -> same_program e e' -> same_program (ELet a n x e) (ELet b m y e').
(** The same outcome: the same program, or the same name undeclared. *)
Inductive same_outcome {A B} (R : A -> B -> Prop) : res A convert_error -> res B convert_error -> Prop :=
| outcome_ok x y : R x y -> same_outcome R (Ok x) (Ok y)
| outcome_undeclared n m : same_name n m -> same_outcome R (Err (UndeclaredName n)) (Err (UndeclaredName m)).
