(** * Messages: what is shown to the user.

    The [Display] implementations of the errors, the end of src/main.rs, and
    the macro of chomp-macro/src/lib.rs. *)
From Coq Require Import String.
From Verif Require Export Main Runtime.
From Coq Require Import List.
Open Scope list_scope.

(** ** Errors of generated parsers *)

(** chewed/src/position.rs:17-21 [Display for LineCol] *)
Definition linecol_text (p : linecol) : rstr := dec (line p) ++ lit ":" ++ dec (col p).

Section Debug.
  (** [{:?}] of [char] and [str], part of the standard library. *)
  Variable debug_char : char -> rstr.
  Variable debug_str : rstr -> rstr.

  (** chewed/src/error.rs:26-28, the loop over the further characters *)
  Fixpoint more_expected (l : list char) : rstr :=
    match l with
    | [] => []
    | c :: l' => lit ", " ++ debug_char c ++ more_expected l'
    end.
  (** chewed/src/error.rs:12-41 [Display for TakeError] *)
  Definition take_message (e : take_error) : rstr :=
    match e with
    | BadBranch pos got expected =>
      linecol_text pos ++ lit ": Unexpected character " ++ debug_char got ++ lit ". " ++
      match expected with
      | [] => lit "Expected end of input."
      | [c] => lit "Expected character " ++ debug_char c ++ lit "."
      | c :: l => lit "Expected one of " ++ debug_char c ++ more_expected l
      end
    | BadString pos got expected =>
      linecol_text pos ++ lit ": Unexpected string " ++ debug_str got ++ lit ". Expected " ++ debug_str expected
    | EndOfStream pos => linecol_text pos ++ lit ": Unexpected end of input"
    end.
  (** chewed/src/error.rs:51-58 [Display for ParseError] *)
  Definition parse_message (e : parse_error) : rstr :=
    match e with
    | PTake e => take_message e
    | InputContinues pos => linecol_text pos ++ lit ": Expected end of input"
    end.
End Debug.

(** ** Errors of the compiler *)

(** src/chomp/name.rs:92-99 [Display for Content]; [Ident] prints its [r#]. *)
Definition content_text (c : content) : rstr :=
  match c with
  | Spanned i => (if id_raw i then lit "r#" else []) ++ id_sym i
  | Spanless s => s
  end.
(** src/chomp/name.rs:213-217 [Display for Name] *)
Definition name_display (n : name) : rstr := content_text (n_content n).

(** src/nibble/convert.rs:81-98 [Display for ConvertError] *)
Definition convert_message (e : convert_error) : rstr :=
  match e with
  | UndeclaredName nm => lit "undeclared name: `" ++ name_display nm ++ lit "`"
  | EmptyCat _ => lit "concatenation has no elements"
  | EmptyAlt _ => lit "alternation has no elements"
  | EmptyCall _ => lit "call has no function"
  end.
(** [name.span()], src/chomp/name.rs:184-188 and 17-24 *)
Definition name_span (n : name) : span := content_span (n_content n).
(** src/nibble/convert.rs:67-79 [From<ConvertError> for syn::Error]: the span *)
Definition convert_span (e : convert_error) : span :=
  match e with
  | UndeclaredName nm => name_span nm
  | EmptyCat sp | EmptyAlt sp | EmptyCall sp => sp
  end.

(** [lambda.args.len()] *)
Definition lambda_arity (e : nexpr) : nat := match e with ELam _ ns _ => List.length ns | _ => 0 end.
(** src/chomp/ast/error.rs:33-50 [Display for ReductionError] *)
Definition reduce_message (e : red_error) : rstr :=
  match e with
  | CallNotAFunction _ _ => lit "call expected a function"
  | WrongArgCount lambda args _ =>
    match lambda_arity lambda, List.length args with
    | 1, n => lit "this function takes 1 argument but " ++ dec n ++ lit " were supplied"
    | m, 1 => lit "this function takes " ++ dec m ++ lit " arguments but 1 was supplied"
    | m, n => lit "this function takes " ++ dec m ++ lit " arguments but " ++ dec n ++ lit " were supplied"
    end
  end.
(** src/chomp/ast/error.rs:21-31 [From<ReductionError> for syn::Error]: the span *)
Definition reduce_span (e : red_error) : span :=
  match e with CallNotAFunction _ sp | WrongArgCount _ _ sp => sp end.

(** src/chomp/typed/error.rs:21-34 (variables), 65-74 (concatenation), 102-109
    (alternation), 159-179 [Display for TypeError] *)
Definition type_message (e : type_error) : rstr :=
  match e with
  | FirstNullable _ _ => lit "first part of concatenation is nullable"
  | FirstFlastOverlap _ _ _ => lit "first set overlaps with preceding flast set"
  | BothNullable _ _ _ => lit "both branches are nullable"
  | FirstOverlap _ _ _ => lit "first sets of both branches overlap"
  | VariableError inner index _ nm =>
    match inner with
    | FreeVariable => lit "unbound variable: "
    | GuardedVariable => lit "usage of guarded variable: "
    end ++
    match nm with
    | Some n => lit "`" ++ name_display n ++ lit "`"
    | None => lit "'" ++ dec index
    end
  | UnexpectedCall _ _ => lit "unexpected call"
  | UnexpectedLambda _ _ => lit "unexpected lambda"
  | UnexpectedLet _ _ => lit "unexpected let"
  | ExpectedLambda _ _ => lit "expected a lambda expression"
  end.
(** src/chomp/typed/error.rs:56-62, 93-99, 121-133 [span] *)
Definition type_span (e : type_error) : span :=
  match e with
  | FirstNullable _ p | FirstFlastOverlap _ p _ | BothNullable _ p _ | FirstOverlap _ p _ => p
  | VariableError _ _ sp _ => sp
  | UnexpectedCall sp _ | UnexpectedLambda sp _ | UnexpectedLet sp _ | ExpectedLambda sp _ => sp
  end.

(** ** The program *)
Definition code := (list entry * nat * (list nat * (rstr * tname)))%type.

Section Program.
  Variable join : span -> span -> option span.
  Variable cs : casing.
  (** The message and the position of syn's error for these tokens. *)
  Variable syn_error : list token -> span * rstr.

  (** [{}] of the boxed error, src/main.rs:57-60 *)
  Definition main_message (ts : list token) (e : main_error) : rstr :=
    match e with
    | MParse => snd (syn_error ts)
    | MConvert e => convert_message e
    | MReduce e => reduce_message e
    | MType e => type_message e
    end.

  (** What running the program shows: the code written to the standard output,
      what is written to the standard error, the exit status (101 after a
      panic, whose message is not modelled).  Writing does not fail. *)
  Record outcome := Outcome { stdout : option code; stderr : option rstr; status : nat }.
  (** src/main.rs:25-61 [main]; [None] while it has not ended within [fuel]. *)
  Definition main (fuel : nat) (ts : list token) : option outcome :=
    match chomp join cs fuel ts with
    | Ok c => Some (Outcome (Some c) None 0)
    | Err e => Some (Outcome None (Some (main_message ts e ++ [10%N])) 1)
    | Panic => Some (Outcome None None 101)
    | OutOfFuel => None
    end.

  (** What the macro expands to. *)
  Inductive expansion :=
  | Code (c : code)
  | CompileError (sp : span) (msg : rstr).

  (** chomp-macro/src/lib.rs:17-43 [nibble] *)
  Definition nibble_macro (fuel : nat) (ts : list token) : res expansion Empty_set :=
    let result : res code (span * rstr) :=
      res_bind (match parse_program ts with Some s => Ok s | None => Err (syn_error ts) end) (fun nibble =>
      res_bind (res_map_err (fun e => (convert_span e, convert_message e)) (convert_program join nibble)) (fun expr =>
      res_bind (res_map_err (fun e => (reduce_span e, reduce_message e)) (reduce fuel expr)) (fun expr =>
      res_bind (res_map_err (fun e => (type_span e, type_message e)) (typecheck expr)) (fun typed =>
      match generate cs typed with
      | None => Panic
      | Some (backend, id) =>
        match emit_code None id backend with
        | None => Panic
        | Some code => Ok (data backend, id, code)
        end
      end)))) in
    match result with
    | Ok c => Ok (Code c)
    | Err (sp, msg) => Ok (CompileError sp msg)   (* [Error::into_compile_error] *)
    | Panic => Panic
    | OutOfFuel => OutOfFuel
    end.
End Program.
