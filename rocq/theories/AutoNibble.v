(** * AutoNibble: autonibble/src/lib.rs, the front end whose parser is generated
    from nibble's own grammar. *)
From Coq Require Import String.
From Verif Require Export Source Main GenSem Convert.
From Coq Require Import List.
Open Scope list_scope.

(** autonibble/src/lib.rs:14-95, verbatim. *)
Definition auto_source : string := "
    let bot = !(/rec/ ""a"" . rec);
    let zero = /zero suc/ zero;
    let suc n = /zero suc/ suc (n zero suc);

    let opt  some = _ : None | some;
    let plus iter = !(/plus/ iter . (opt plus));
    let star iter = opt (plus iter);

    let up_to x n = n bot (/rec/ x . opt rec);

    let Pattern_Whitespace = ""\t""|""\n""|""\x0B""|""\x0c""|""\r""|"" ""|""\u{85}""|""\u{200e}""|""\u{200f}""|""\u{2028}""|""\u{2029}"";

    let oct_digit = ""0"" | ""1"" | ""2"" | ""3"" | ""4"" | ""5"" | ""6"" | ""7"" ;
    let digit     = ""0"" | ""1"" | ""2"" | ""3"" | ""4"" | ""5"" | ""6"" | ""7"" | ""8"" | ""9"";
    let hex_digit = ""0"" | ""1"" | ""2"" | ""3"" | ""4"" | ""5"" | ""6"" | ""7"" | ""8"" | ""9"" |
                    ""a"" | ""b"" | ""c"" | ""d"" | ""e"" | ""f"" |
                    ""A"" | ""B"" | ""C"" | ""D"" | ""E"" | ""F"" ;

    let XID_Start =
        ""a"" | ""b"" | ""c"" | ""d"" | ""e"" | ""f"" | ""g"" | ""h"" |
        ""i"" | ""j"" | ""k"" | ""l"" | ""m"" | ""n"" | ""o"" | ""p"" |
        ""q"" | ""r"" | ""s"" | ""t"" | ""u"" | ""v"" | ""w"" | ""x"" |
        ""y"" | ""z"" |
        ""A"" | ""B"" | ""C"" | ""D"" | ""E"" | ""F"" | ""G"" | ""H"" |
        ""I"" | ""J"" | ""K"" | ""L"" | ""M"" | ""N"" | ""O"" | ""P"" |
        ""Q"" | ""R"" | ""S"" | ""T"" | ""U"" | ""V"" | ""W"" | ""X"" |
        ""Y"" | ""Z"" ;
    let XID_Continue =
        XID_Start | ""_"" | ""0"" | ""1"" | ""2"" | ""3"" | ""4"" | ""5"" | ""6"" | ""7"" | ""8"" | ""9"" ;

    let literal_char =
        ("" "" | ""!""       | ""#"" | ""$"" | ""%"" | ""&"" | ""'"" |
         ""("" | "")"" | ""*"" | ""+"" | "","" | ""-"" | ""."" | ""/"" |
         ""0"" | ""1"" | ""2"" | ""3"" | ""4"" | ""5"" | ""6"" | ""7"" |
         ""8"" | ""9"" | "":"" | "";"" | ""<"" | ""="" | "">"" | ""?"" |
         ""@"" | ""A"" | ""B"" | ""C"" | ""D"" | ""E"" | ""F"" | ""G"" |
         ""H"" | ""I"" | ""J"" | ""K"" | ""L"" | ""M"" | ""N"" | ""O"" |
         ""P"" | ""Q"" | ""R"" | ""S"" | ""T"" | ""U"" | ""V"" | ""W"" |
         ""X"" | ""Y"" | ""Z"" | ""[""       | ""]"" | ""^"" | ""_"" |
         ""`"" | ""a"" | ""b"" | ""c"" | ""d"" | ""e"" | ""f"" | ""g"" |
         ""h"" | ""i"" | ""j"" | ""k"" | ""l"" | ""m"" | ""n"" | ""o"" |
         ""p"" | ""q"" | ""r"" | ""s"" | ""t"" | ""u"" | ""v"" | ""w"" |
         ""x"" | ""y"" | ""z"" | ""{"" | ""|"" | ""}"" | ""~"") : Literal |
        ""\\"" . (
            (""\"""" | ""'"" | ""n"" | ""r"" | ""t"" | ""\\"" | ""0"") : Ascii |
            ""x""  . oct_digit . hex_digit : Oct |
            ""u{"" . up_to hex_digit (suc (suc (suc (suc (suc (suc zero)))))) . ""}"" : Unicode
        ) : Escape ;

    let ws = plus Pattern_Whitespace;
    let ows = opt ws;

    let list inner = !(/list/ inner . opt (ws . opt list));
    let separated inner sep = !(/separated/ inner . opt (sep . ows . separated));

    let epsilon = ""_"";
    let ident = XID_Start . star XID_Continue;
    let literal = ""\"""" . (plus literal_char : Contents) . ""\"""";
    let fix term = ""!"" . ows . term;
    let parens expr = ""("" . ows . expr . "")"";

    let names = list ident;

    let term expr = !(/term/
          epsilon : Epsilon
        | literal : Literal
        | parens expr : Parens
        | fix term : Fix
        | ident : Variable
        );

    let label = "":"" . ows . ident . ows;

    let call   expr = list (term expr);
    let cat    expr = separated (call expr) ""."";
    let alt    expr = separated (cat expr . opt label : Labelled) ""|"";
    let lambda expr = ""/"" . ows . names . ""/"" . ows . alt expr;
    let expr = !(/expr/ alt expr | lambda expr);
    let goal = ""match"" . ws . expr . "";"" . ows;
    let let stmt = ""let"" . ws . names . ""="" . ows . expr . "";"" . ows . stmt;
    let stmt = !(/stmt/ let stmt | goal);
    match !(/skip/ Pattern_Whitespace . skip | stmt);
"%string.

(** What the macro generates: the table of types and the type of [Ast].  The
    names of the types are those the rest of the file uses (PropAuto,
    C73_ex_names). *)
Notation auto_chomp := (chomp (fun _ _ => None) heck 500 (tokens_of auto_source)).
(** the code generated for autonibble/src/lib.rs:14-95 (chomp-macro/src/lib.rs) *)
Definition auto_tab := Eval vm_compute in match auto_chomp with Ok (tab, _, _) => tab | _ => [] end.
(** the code generated for autonibble/src/lib.rs:14-95 (chomp-macro/src/lib.rs) *)
Definition auto_root := 0.

(** A value of a generated type is a [tree] (GenSem.v): structs are [NCat],
    enums [NAlt] with the number of the variant, boxes [NBox].  [to_string] of
    a value is its [yield] (C23). *)

(** ** Iterators *)
(** [Iterator::next] on [&mut self]: the item and what the iterator becomes.
    [finished] is the [None1(Epsilon)] that [mem::replace] leaves. *)
(** std [Iterator::next], autonibble/src/lib.rs:329-417 *)
Definition finished : tree := NAlt 0 NEps.
(** std [Iterator::next], autonibble/src/lib.rs:329-417 *)
Definition stepper : Type := tree -> option tree * tree.
(** autonibble/src/lib.rs:329-344 [Iterator for Opt3]: names *)
Definition opt3_next : stepper := fun t =>
  match t with
  | NAlt 1 (NBox (NCat [ident1; opt1])) =>
    (Some ident1, match opt1 with NAlt 1 (NCat [_; opt1']) => opt1' | _ => finished end)
  | _ => (None, finished)
  end.
(** autonibble/src/lib.rs:346-359 [Iterator for Opt16] and 361-374 [Iterator for
    Opt14]: the rest of an alternation or a concatenation *)
Definition separated_next : stepper := fun t =>
  match t with
  | NAlt 1 (NCat [_; _; NBox (NCat [item; opt1])]) => (Some item, opt1)
  | _ => (None, finished)
  end.
(** autonibble/src/lib.rs:376-392 [Iterator for Opt13]: the rest of a call *)
Definition opt13_next : stepper := fun t =>
  match t with
  | NAlt 1 (NCat [_; NAlt 1 (NBox (NCat [term1; opt1]))]) => (Some term1, opt1)
  | _ => (None, finished)
  end.
(** autonibble/src/lib.rs:404-417 [Iterator for Opt11]: the characters of a
    literal; the conversion to [char] is [char_of] *)
Definition opt11_next : stepper := fun t =>
  match t with
  | NAlt 1 (NBox (NCat [literal_char1; opt1])) => (Some literal_char1, opt1)
  | _ => (None, finished)
  end.
(** [next] until it returns [None]. *)
(** std [collect], over the iterators of autonibble/src/lib.rs:329-417 *)
Fixpoint drain (next : stepper) (fuel : nat) (t : tree) : list tree :=
  match fuel with
  | O => []
  | S n => match next t with (Some x, t') => x :: drain next n t' | (None, _) => [] end
  end.
(** std [collect], over the iterators of autonibble/src/lib.rs:329-417 *)
Definition items (next : stepper) (t : tree) : list tree := drain next (tree_size t) t.

(** autonibble/src/lib.rs:319-327 [IntoIterator for Names1], 394-402
    [IntoIterator for Contents1]: [List1(Box::new(self))] *)
Definition into_iter (t : tree) : tree := NAlt 1 (NBox t).

(** ** Characters *)
(** [u32::from_str_radix(_, 16)] of the standard library, for a text without a
    sign; [None] is an error. *)
(** std [u32::from_str_radix], [char::try_from], autonibble/src/lib.rs:452-466 *)
Definition digit16 (c : char) : option N :=
  if (N.leb 48 c && N.leb c 57)%bool then Some (c - 48)%N
  else if (N.leb 97 c && N.leb c 102)%bool then Some (c - 87)%N
  else if (N.leb 65 c && N.leb c 70)%bool then Some (c - 55)%N
  else None.
(** std [u32::from_str_radix], [char::try_from], autonibble/src/lib.rs:452-466 *)
Fixpoint radix16 (acc : N) (s : rstr) : option N :=
  match s with
  | [] => Some acc
  | c :: s' =>
    match digit16 c with
    | Some d => if (16 * acc + d <? 4294967296)%N then radix16 (16 * acc + d)%N s' else None
    | None => None
    end
  end.
(** std [u32::from_str_radix], [char::try_from], autonibble/src/lib.rs:452-466 *)
Definition from_str_radix_16 (s : rstr) : option N := match s with [] => None | _ => radix16 0 s end.
(** [char::try_from(u32)] *)
(** std [u32::from_str_radix], [char::try_from], autonibble/src/lib.rs:452-466 *)
Definition char_try_from (n : N) : option char :=
  if (n <? 55296)%N || ((57343 <? n)%N && (n <? 1114112)%N) then Some n else None.
(** std [u32::from_str_radix], [char::try_from], autonibble/src/lib.rs:452-466 *)
Definition hex_char (s : rstr) : option char :=
  match from_str_radix_16 s with Some n => char_try_from n | None => None end.
(** autonibble/src/lib.rs:438-450 [Ascii1::escape], the variants in order *)
Definition ascii_escape : list char := [34; 39; 10; 13; 9; 92; 0]%N.
(** autonibble/src/lib.rs:419-466, [From<LiteralChar1> for char] and what it
    calls; 141 is [Literal1], 144 [OctDigit1], 145 [HexDigit1].  [None] is a
    panic (or a value that is not of the type). *)
Definition char_of (t : tree) : option char :=
  match t with
  | NAlt 0 c => to_char auto_tab 141 c                                            (* 422 *)
  | NAlt 1 (NCat [_; NAlt 0 (NAlt k _)]) => nth_error ascii_escape k              (* 431 *)
  | NAlt 1 (NCat [_; NAlt 1 (NCat [_; o; h])]) =>                                 (* 452-459 *)
    match to_char auto_tab 144 o, to_char auto_tab 145 h with
    | Some a, Some b => hex_char [a; b]
    | _, _ => None
    end
  | NAlt 1 (NCat [_; NAlt 2 (NCat [_; u; _])]) => hex_char (yield u)              (* 461-466 *)
  | _ => None
  end.
(** autonibble/src/lib.rs:404-417, 419-466 *)
Fixpoint chars_of (l : list tree) : option rstr :=
  match l with
  | [] => Some []
  | t :: l' => match char_of t, chars_of l' with Some c, Some s => Some (c :: s) | _, _ => None end
  end.

(** ** Conversion *)
(** outcomes of autonibble/src/lib.rs:98-317 *)
Definition panic {A} : conv A := fun ctx => (Panic, ctx).
(** outcomes of autonibble/src/lib.rs:98-317 *)
Definition no_fuel {A} : conv A := fun ctx => (OutOfFuel, ctx).
(** [Span::call_site()] everywhere *)
(** autonibble/src/lib.rs:182-268 *)
Definition unnamed : ann := Ann None call_site.
(** autonibble/src/lib.rs:468-484 [From<..> for Content] *)
Definition content_of (t : tree) : content := Spanless (yield t).

(** [iter.map(|inner| inner.convert(context)).collect::<Result<_, _>>()] *)
(** autonibble/src/lib.rs:182-268 *)
Fixpoint collect (f : tree -> conv nexpr) (l : list tree) : conv (list nexpr) :=
  match l with
  | [] => ret []
  | t :: l' => bind (f t) (fun e => bind (collect f l') (fun r => ret (e :: r)))
  end.

(** The levels above a term, given the conversion of terms. *)
Section Levels.
  Context (term : tree -> conv nexpr).
  (** autonibble/src/lib.rs:246-268 [Convert for Call1] *)
  Definition auto_call (t : tree) : conv nexpr :=
    match t with
    | NCat [term1; opt1] =>
      bind (term term1) (fun first => bind (collect term (items opt13_next opt1)) (fun rest =>
        match rest with [] => ret first | _ => ret (ECall unnamed first rest) end))
    | _ => panic
    end.
  (** autonibble/src/lib.rs:222-244 [Convert for Cat1] *)
  Definition auto_cat (t : tree) : conv nexpr :=
    match t with
    | NCat [call1; opt1] =>
      bind (auto_call call1) (fun first => bind (collect auto_call (items separated_next opt1)) (fun rest =>
        match rest with [] => ret first | _ => ret (ECat unnamed first (map (fun e => (call_site, e)) rest)) end))
    | _ => panic
    end.
  (** autonibble/src/lib.rs:206-220 [Convert for Labelled1] *)
  Definition auto_labelled (t : tree) : conv nexpr :=
    match t with
    | NCat [cat1; opt1] =>
      bind (auto_cat cat1) (fun named =>
        let label := match opt1 with NAlt 1 (NCat [_; _; ident1; _]) => Some (new_label (content_of ident1)) | _ => None end in
        ret (set_name (merge label (e_name named)) named))
    | _ => panic
    end.
  (** autonibble/src/lib.rs:182-204 [Convert for Alt1] *)
  Definition auto_alt (t : tree) : conv nexpr :=
    match t with
    | NCat [labelled1; opt1] =>
      bind (auto_labelled labelled1) (fun first => bind (collect auto_labelled (items separated_next opt1)) (fun rest =>
        match rest with [] => ret first | _ => ret (EAlt unnamed first (map (fun e => (call_site, e)) rest)) end))
    | _ => panic
    end.
  (** autonibble/src/lib.rs:165-180 [Convert for Lambda1] *)
  Definition auto_lambda (t : tree) : conv nexpr :=
    match t with
    | NCat [_; _; names1; _; _; alt1] =>
      let args := map (fun i => new_variable (content_of i)) (items opt3_next (into_iter names1)) in
      bind (with_variables args (auto_alt alt1)) (fun inner => ret (ELam unnamed args inner))
    | _ => panic
    end.
  (** autonibble/src/lib.rs:156-163 [Convert for Expr1] *)
  Definition auto_expr (t : tree) : conv nexpr :=
    match t with
    | NAlt 0 alt => auto_alt alt
    | NAlt 1 lambda => auto_lambda lambda
    | _ => panic
    end.
End Levels.

(** autonibble/src/lib.rs:304-317 [Convert for Variable1] *)
Definition auto_variable (t : tree) : conv nexpr := fun ctx =>
  let nm := new_variable (content_of t) in
  match lookup ctx nm with
  | Some index => (Ok (EVar (Ann (Some nm) call_site) index), ctx)
  | None => (Err (UndeclaredName nm), ctx)
  end.

(** autonibble/src/lib.rs:270-302 [Convert for Term1], [Convert for Fix1] *)
Fixpoint auto_term (fuel : nat) (t : tree) : conv nexpr :=
  match fuel with
  | O => no_fuel
  | S n =>
    match t with
    | NAlt 0 _ => ret (EEps unnamed)
    | NAlt 1 (NCat [_; contents1; _]) =>
      match chars_of (items opt11_next (into_iter contents1)) with Some v => ret (ELit unnamed v) | None => panic end
    | NAlt 2 (NCat [_; _; NBox expr1; _]) => auto_expr (auto_term n) expr1
    | NAlt 3 (NCat [_; _; NBox term1]) => bind (auto_term n term1) (fun inner => ret (EFix unnamed inner))
    | NAlt 4 var => auto_variable var
    | _ => panic
    end
  end.

(** autonibble/src/lib.rs:113-154 [Convert for Stmt1] *)
Fixpoint auto_stmt (fuel : nat) (t : tree) : conv nexpr :=
  match fuel with
  | O => no_fuel
  | S n =>
    match t with
    | NAlt 1 (NCat [_; _; expr1; _; _]) => auto_expr (auto_term n) expr1
    | NAlt 0 (NCat [_; _; names1; _; _; expr1; _; _; NBox stmt1]) =>
      match items opt3_next (into_iter names1) with
      | [] => panic                                                               (* unwrap *)
      | first :: names =>
        let nm := new_let (content_of first) in
        bind (match names with
              | [] => auto_expr (auto_term n) expr1
              | _ =>
                let args := map (fun i => new_variable (content_of i)) names in
                bind (with_variables args (auto_expr (auto_term n) expr1)) (fun inner => ret (ELam unnamed args inner))
              end) (fun bound =>
        bind (fun ctx => (Ok tt, push_variable nm ctx)) (fun _ =>
        bind (auto_stmt n stmt1) (fun body =>
          ret (ELet unnamed nm (set_name (Some nm) bound) body))))
      end
    | _ => panic
    end
  end.

(** autonibble/src/lib.rs:98-111 [Convert for Ast] *)
Fixpoint skip_branches (t : tree) : tree :=
  match t with
  | NAlt 0 (NCat [_; NBox skip1]) => skip_branches skip1
  | _ => t
  end.
(** autonibble/src/lib.rs:98-111 *)
Definition auto_ast (fuel : nat) (t : tree) : conv nexpr :=
  match skip_branches t with
  | NAlt 1 stmt => auto_stmt fuel stmt
  | _ => panic
  end.
(** [ast.convert(&mut Context::default())], autonibble/src/main.rs:34-37,
    autonibble/tests/compare/main.rs:17-23 *)
Definition auto_convert (t : tree) : res nexpr convert_error := fst (auto_ast (tree_size t) t []).

(** [PartialEq for NamedExpression] and for what it contains,
    src/chomp/ast/mod.rs:10-13, 31-41, 61-71, 75, 86, 98, 117, 139, 152, 276-280:
    the names and spans of the expressions are not compared. *)
Fixpoint nexpr_eqb (x y : nexpr) {struct x} : bool :=
  let seps := fix go (l m : list (span * nexpr)) : bool :=
    match l, m with
    | [], [] => true
    | (_, a) :: l', (_, b) :: m' => nexpr_eqb a b && go l' m'
    | _, _ => false
    end in
  let args := fix go (l m : list nexpr) : bool :=
    match l, m with
    | [], [] => true
    | a :: l', b :: m' => nexpr_eqb a b && go l' m'
    | _, _ => false
    end in
  match x, y with
  | EEps _, EEps _ => true
  | ELit _ s, ELit _ s' => rstr_eqb s s'
  | ECat _ f r, ECat _ f' r' => nexpr_eqb f f' && seps r r'
  | EAlt _ f r, EAlt _ f' r' => nexpr_eqb f f' && seps r r'
  | EFix _ i, EFix _ i' => nexpr_eqb i i'
  | EVar _ i, EVar _ i' => Nat.eqb i i'
  | ECall _ f l, ECall _ f' l' => nexpr_eqb f f' && args l l'
  | ELam _ n i, ELam _ n' i' =>
    (fix go l m := match l, m with [], [] => true | a :: l', b :: m' => name_eqb a b && go l' m' | _, _ => false end) n n' && nexpr_eqb i i'
  | ELet _ n e b, ELet _ n' e' b' => name_eqb n n' && nexpr_eqb e e' && nexpr_eqb b b'
  | _, _ => false
  end.
