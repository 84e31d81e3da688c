(** * Nibble: src/nibble/mod.rs, the surface syntax, its tokens and its parser.

    Tokens are those of a [proc_macro2::TokenStream]: the tokenizer is not
    modelled.  [Ident], [LitStr] and punctuation of syn 1.0 are modelled as
    documented there. *)
From Coq Require Import String.
From Verif Require Export Names Reduce.
From Coq Require Import List.
Open Scope list_scope.

(** ** Tokens *)
(** proc_macro2 [TokenTree], as far as src/nibble/mod.rs:16-464 looks at it *)
Inductive token : Type :=
| TkIdent (i : ident)                     (* also keywords and [_] *)
| TkStr (v : rstr) (sp : span)            (* a string literal, by its value *)
| TkPunct (c : char) (sp : span)
| TkGroup (sp : span) (ts : list token)   (* a parenthesised group *)
| TkOther (sp : span).                    (* anything else: numbers, brackets, ... *)

(** proc_macro2 [TokenTree], as far as src/nibble/mod.rs:16-464 looks at it *)
Definition token_span (t : token) : span :=
  match t with
  | TkIdent i => id_span i
  | TkStr _ sp | TkPunct _ sp | TkGroup sp _ | TkOther sp => sp
  end.

(** Writing keyword and punctuation tokens. *)
(** the keyword and punctuation tokens of src/nibble/mod.rs:16-442 *)
Definition kw (s : string) (sp : span) : token := TkIdent (Ident false (lit s) sp).
(** the keyword and punctuation tokens of src/nibble/mod.rs:16-442 *)
Definition pt (s : string) (sp : span) : token := TkPunct (chr s) sp.

(** ** Syntax trees, src/nibble/mod.rs:16-442.
    The Rust types [Term], [Call], [Cat], [Labelled], [Alt] and [Expression]
    are one Coq type; [sorted] below says which nodes belong to which.
    A [Punctuated] is its list of pairs. *)
Inductive node : Type :=
| NEpsilon (sp : span)                                            (* mod.rs:16 *)
| NIdent (i : ident)                                              (* mod.rs:18 *)
| NLiteral (v : rstr) (sp : span)                                 (* mod.rs:20 *)
| NFix (bang : span) (t : node)                                   (* mod.rs:22-26 *)
| NParen (sp : span) (e : node)                                   (* mod.rs:49-53 *)
| NCall (ts : list node)                                          (* mod.rs:131-132 *)
| NCatP (ps : list (node * option span))                          (* mod.rs:161-162 *)
| NLabelled (c : node) (label : option (span * ident))            (* mod.rs:183-187, 210-214 *)
| NAltP (ps : list (node * option span))                          (* mod.rs:238-239 *)
| NLambda (l : span) (args : list ident) (r : span) (e : node).   (* mod.rs:260-266 *)

(** src/nibble/mod.rs:335-340, 373-382, 438-442 *)
Inductive stmt : Type :=
| SGoal (kwd : span) (e : node) (semi : span)
| SLet (kwd : span) (nm : ident) (args : list ident) (eq : span) (e : node) (semi : span) (next : stmt).

(** ** Printing: the [ToTokens] implementations *)
(** syn 1.0 [ToTokens for Punctuated], src/nibble/mod.rs:164-168, 240-244 *)
Definition pairs_tokens (f : node -> list token) (sep : string) : list (node * option span) -> list token :=
  fix go l :=
  match l with
  | [] => []
  | (n, p) :: l' => f n ++ match p with Some sp => [pt sep sp] | None => [] end ++ go l'
  end.
(** src/nibble/mod.rs:28-33, 55-59, 85-95, 134-138, 164-168, 189-194, 216-223,
    241-245, 268-275, 318-325 *)
Fixpoint to_tokens (n : node) : list token :=
  match n with
  | NEpsilon sp => [kw "_" sp]
  | NIdent i => [TkIdent i]
  | NLiteral v sp => [TkStr v sp]
  | NFix b t => pt "!" b :: to_tokens t
  | NParen sp e => [TkGroup sp (to_tokens e)]
  | NCall ts => flat_map to_tokens ts
  | NCatP ps => pairs_tokens to_tokens "." ps
  | NLabelled c l => to_tokens c ++ match l with Some (sp, i) => [pt ":" sp; TkIdent i] | None => [] end
  | NAltP ps => pairs_tokens to_tokens "|" ps
  | NLambda l args r e => pt "/" l :: map TkIdent args ++ pt "/" r :: to_tokens e
  end.
(** src/nibble/mod.rs:342-348, 384-394, 444-451 *)
Fixpoint stmt_tokens (s : stmt) : list token :=
  match s with
  | SGoal k e semi => kw "match" k :: to_tokens e ++ [pt ";" semi]
  | SLet k nm args eq e semi next =>
    kw "let" k :: TkIdent nm :: map TkIdent args ++ pt "=" eq :: to_tokens e ++ pt ";" semi :: stmt_tokens next
  end.

(** ** Parsing: the [Parse] implementations *)
(** syn 1.0 [peek(Token![..])], src/nibble/mod.rs:145-150, 285-294, 350-362, 401-410 *)
Definition is_punct (c : char) (t : token) : bool := match t with TkPunct d _ => N.eqb c d | _ => false end.
(** syn 1.0 [peek(Token![..])], src/nibble/mod.rs:145-150, 285-294, 350-362, 401-410 *)
Definition is_word (s : rstr) (i : ident) : bool := negb (id_raw i) && rstr_eqb (id_sym i) s.
(** syn 1.0 [peek(Token![..])], src/nibble/mod.rs:145-150, 285-294, 350-362, 401-410 *)
Definition is_kw (s : string) (t : token) : bool := match t with TkIdent i => is_word (lit s) i | _ => false end.

(** syn 1.0, src/ident.rs [accept_as_ident]: the words [Ident::parse] refuses. *)
Definition reserved : list string :=
  ["_"; "abstract"; "as"; "async"; "await"; "become"; "box"; "break"; "const"; "continue"; "crate"; "do"; "dyn";
   "else"; "enum"; "extern"; "false"; "final"; "fn"; "for"; "if"; "impl"; "in"; "let"; "loop"; "macro"; "match";
   "mod"; "move"; "mut"; "override"; "priv"; "pub"; "ref"; "return"; "Self"; "self"; "static"; "struct"; "super";
   "trait"; "true"; "try"; "type"; "typeof"; "unsafe"; "unsized"; "use"; "virtual"; "where"; "while"; "yield"]%string.
(** syn 1.0 [accept_as_ident] *)
Definition is_reserved (i : ident) : bool := existsb (fun s => is_word (lit s) i) reserved.

(** [input.parse::<Ident>()] *)
(** syn 1.0 [ParseStream], src/nibble/mod.rs:35-41, 97-117, 277-304, 396-425 *)
Definition parse_ident (ts : list token) : option (ident * list token) :=
  match ts with
  | TkIdent i :: ts' => if is_reserved i then None else Some (i, ts')
  | _ => None
  end.
(** [input.call(Ident::parse_any)] *)
(** syn 1.0 [ParseStream], src/nibble/mod.rs:35-41, 97-117, 277-304, 396-425 *)
Definition parse_any (ts : list token) : option (ident * list token) :=
  match ts with TkIdent i :: ts' => Some (i, ts') | _ => None end.
(** [input.parse::<Token![c]>()] *)
(** syn 1.0 [ParseStream], src/nibble/mod.rs:35-41, 97-117, 277-304, 396-425 *)
Definition parse_punct (c : char) (ts : list token) : option (span * list token) :=
  match ts with TkPunct d sp :: ts' => if N.eqb c d then Some (sp, ts') else None | _ => None end.
(** syn 1.0 [ParseStream], src/nibble/mod.rs:35-41, 97-117, 277-304, 396-425 *)
Definition parse_kw (s : string) (ts : list token) : option (span * list token) :=
  match ts with TkIdent i :: ts' => if is_word (lit s) i then Some (id_span i, ts') else None | _ => None end.

(** The tokens a term may start with, src/nibble/mod.rs:145-150. *)
Definition starts_term (ts : list token) : bool :=
  match ts with
  | TkIdent _ :: _ | TkStr _ _ :: _ | TkGroup _ _ :: _ => true
  | TkPunct c _ :: _ => N.eqb c (chr "!")
  | _ => false
  end.

(** src/nibble/mod.rs:285-294, the loop of [Lambda::parse] *)
Fixpoint lambda_args (fuel : nat) (ts : list token) : option (list ident * list token) :=
  match fuel with
  | O => None
  | S n =>
    match parse_ident ts with
    | None => None
    | Some (i, ts') =>
      match ts' with
      | TkPunct c _ :: _ => if N.eqb c (chr "/") then Some ([i], ts') else None
      | TkIdent _ :: _ =>
        match lambda_args n ts' with None => None | Some (l, ts'') => Some (i :: l, ts'') end
      | _ => None
      end
    end
  end.
(** src/nibble/mod.rs:401-410, the loop of [LetStatement::parse] *)
Fixpoint let_args (fuel : nat) (ts : list token) : option (list ident * list token) :=
  match fuel with
  | O => None
  | S n =>
    match ts with
    | TkPunct c _ :: _ => if N.eqb c (chr "=") then Some ([], ts) else None
    | TkIdent _ :: _ =>
      match parse_ident ts with
      | None => None
      | Some (i, ts') => match let_args n ts' with None => None | Some (l, ts'') => Some (i :: l, ts'') end
      end
    | _ => None
    end
  end.

(** syn 1.0 [Punctuated::parse_separated_nonempty] *)
Fixpoint separated (item : list token -> option (node * list token)) (sep : char) (fuel : nat) (ts : list token)
    : option (list (node * option span) * list token) :=
  match fuel with
  | O => None
  | S n =>
    match item ts with
    | None => None
    | Some (x, ts') =>
      match parse_punct sep ts' with
      | None => Some ([(x, None)], ts')
      | Some (sp, ts'') =>
        match separated item sep n ts'' with None => None | Some (l, r) => Some ((x, Some sp) :: l, r) end
      end
    end
  end.
(** src/nibble/mod.rs:142-156, the loop of [Call::parse] *)
Fixpoint call_terms (term : list token -> option (node * list token)) (fuel : nat) (ts : list token)
    : option (list node * list token) :=
  match fuel with
  | O => None
  | S n =>
    match term ts with
    | None => None
    | Some (x, ts') =>
      if starts_term ts' then
        match call_terms term n ts' with None => None | Some (l, r) => Some (x :: l, r) end
      else Some ([x], ts')
    end
  end.

(** The parsers of the levels above a term, given the parser of terms. *)
Section Levels.
  Context (term : list token -> option (node * list token)).
  Definition parse_call (ts : list token) : option (node * list token) :=       (* mod.rs:140-158 *)
    match call_terms term (S (length ts)) ts with None => None | Some (l, r) => Some (NCall l, r) end.
  Definition parse_cat (ts : list token) : option (node * list token) :=        (* mod.rs:170-174 *)
    match separated parse_call (chr ".") (S (length ts)) ts with None => None | Some (l, r) => Some (NCatP l, r) end.
  Definition parse_labelled (ts : list token) : option (node * list token) :=   (* mod.rs:196-202, 225-235 *)
    match parse_cat ts with
    | None => None
    | Some (c, ts') =>
      match parse_punct (chr ":") ts' with
      | None => Some (NLabelled c None, ts')
      | Some (sp, ts'') =>
        match parse_any ts'' with None => None | Some (i, r) => Some (NLabelled c (Some (sp, i)), r) end
      end
    end.
  Definition parse_alt (ts : list token) : option (node * list token) :=        (* mod.rs:247-251 *)
    match separated parse_labelled (chr "|") (S (length ts)) ts with None => None | Some (l, r) => Some (NAltP l, r) end.
  Definition parse_lambda (ts : list token) : option (node * list token) :=     (* mod.rs:277-304 *)
    match parse_punct (chr "/") ts with
    | None => None
    | Some (l, ts1) =>
      match lambda_args (length ts) ts1 with
      | None => None
      | Some (args, ts2) =>
        match parse_punct (chr "/") ts2 with
        | None => None
        | Some (r, ts3) =>
          match parse_alt ts3 with None => None | Some (e, rest) => Some (NLambda l args r e, rest) end
        end
      end
    end.
  Definition parse_expr (ts : list token) : option (node * list token) :=       (* mod.rs:327-333 *)
    match ts with
    | TkPunct c _ :: _ => if N.eqb c (chr "/") then parse_lambda ts else parse_alt ts
    | _ => parse_alt ts
    end.
End Levels.

(** src/nibble/mod.rs:97-117 (and 35-41, 61-68).  A parenthesised expression
    must be read to the end of its group.  [fuel] bounds the nesting. *)
Fixpoint parse_term (fuel : nat) (ts : list token) : option (node * list token) :=
  match fuel with
  | O => None
  | S n =>
    match ts with
    | TkIdent i :: ts' => if is_word (lit "_") i then Some (NEpsilon (id_span i), ts') else Some (NIdent i, ts')
    | TkStr v sp :: ts' => Some (NLiteral v sp, ts')
    | TkPunct c sp :: ts' =>
      if N.eqb c (chr "!") then
        match parse_term n ts' with None => None | Some (t, r) => Some (NFix sp t, r) end
      else None
    | TkGroup sp inner :: ts' =>
      match parse_expr (parse_term n) inner with
      | Some (e, []) => Some (NParen sp e, ts')
      | _ => None
      end
    | _ => None
    end
  end.

(** src/nibble/mod.rs:350-362, 396-425, 453-464 *)
Fixpoint parse_stmt (fuel : nat) (ts : list token) : option (stmt * list token) :=
  match fuel with
  | O => None
  | S n =>
    if match ts with t :: _ => is_kw "let" t | [] => false end then
      match parse_kw "let" ts with
      | None => None
      | Some (k, ts1) =>
        match parse_any ts1 with
        | None => None
        | Some (nm, ts2) =>
          match let_args (S (length ts2)) ts2 with
          | None => None
          | Some (args, ts3) =>
            match parse_punct (chr "=") ts3 with
            | None => None
            | Some (eq, ts4) =>
              match parse_expr (parse_term n) ts4 with
              | None => None
              | Some (e, ts5) =>
                match parse_punct (chr ";") ts5 with
                | None => None
                | Some (semi, ts6) =>
                  match parse_stmt n ts6 with
                  | None => None
                  | Some (next, r) => Some (SLet k nm args eq e semi next, r)
                  end
                end
              end
            end
          end
        end
      end
    else
      match parse_kw "match" ts with
      | None => None
      | Some (k, ts1) =>
        match parse_expr (parse_term n) ts1 with
        | None => None
        | Some (e, ts2) =>
          match parse_punct (chr ";") ts2 with None => None | Some (semi, r) => Some (SGoal k e semi, r) end
        end
      end
  end.

(** The size of a token stream; enough fuel for the parser. *)
(** no code of its own: a bound for the recursion of the parser of src/nibble/mod.rs *)
Fixpoint token_size (t : token) : nat :=
  match t with
  | TkGroup _ ts => S (S (list_sum (map token_size ts)))
  | _ => 1
  end.
(** no code of its own: a bound for the recursion of the parser of src/nibble/mod.rs *)
Definition tokens_size (ts : list token) : nat := list_sum (map token_size ts).

(** [syn::parse2::<Statement>] / [syn::parse_str] after tokenizing, src/main.rs:30:
    everything must be read. *)
Definition parse_program (ts : list token) : option stmt :=
  match parse_stmt (S (tokens_size ts)) ts with
  | Some (s, []) => Some s
  | _ => None
  end.
