(** * Convert: src/nibble/convert.rs, from surface syntax to expressions. *)
From Coq Require Import String.
From Verif Require Export Nibble.
From Coq Require Import List.
Open Scope list_scope.

(** src/nibble/convert.rs:13-16 [Context]: the bindings, the last pushed first. *)
Definition context := list content.

(** src/nibble/convert.rs:24-31 [Context::lookup] *)
Fixpoint position (c : content) (ctx : context) : option nat :=
  match ctx with
  | [] => None
  | n :: ctx' => if content_eqb n c then Some 0 else option_map S (position c ctx')
  end.
(** src/nibble/convert.rs:24-31 *)
Definition lookup (ctx : context) (nm : name) : option nat := position (n_content nm) ctx.

(** src/nibble/convert.rs:34-36 [Context::push_variable] *)
Definition push_variable (nm : name) (ctx : context) : context := n_content nm :: ctx.

(** src/nibble/convert.rs:59-65 [ConvertError] *)
Inductive convert_error :=
| UndeclaredName (nm : name)
| EmptyCat (sp : span)
| EmptyAlt (sp : span)
| EmptyCall (sp : span).

(** A function on [&mut Context]. *)
(** [convert] of src/nibble/convert.rs:102-104 and its [?] *)
Definition conv (A : Type) : Type := context -> res A convert_error * context.
(** [convert] of src/nibble/convert.rs:102-104 and its [?] *)
Definition ret {A} (x : A) : conv A := fun ctx => (Ok x, ctx).
(** [convert] of src/nibble/convert.rs:102-104 and its [?] *)
Definition fail {A} (e : convert_error) : conv A := fun ctx => (Err e, ctx).
(** [?] *)
(** [convert] of src/nibble/convert.rs:102-104 and its [?] *)
Definition bind {A B} (m : conv A) (k : A -> conv B) : conv B := fun ctx =>
  match m ctx with
  | (Ok x, ctx') => k x ctx'
  | (Err e, ctx') => (Err e, ctx')
  | (Panic, ctx') => (Panic, ctx')
  | (OutOfFuel, ctx') => (OutOfFuel, ctx')
  end.

(** src/nibble/convert.rs:46-56 [Context::with_variables]; the panic is the
    [unreachable!] of [resize_with]. *)
Definition with_variables {A} (names : list name) (f : conv A) : conv A := fun ctx =>
  let len := length ctx in
  let (r, ctx') := f (rev (map n_content names) ++ ctx) in
  if Nat.ltb (length ctx') len then (Panic, ctx') else (r, skipn (length ctx' - len) ctx').

(** syn 1.0 [Spanned::span] of a syntax tree, src/spanned.rs [join_spans]:
    [join] is [proc_macro2::Span::join]. *)
Definition join_spans (join : span -> span -> option span) (ts : list token) : span :=
  match map token_span ts with
  | [] => call_site
  | [s] => s
  | s :: l => match join s (last l s) with Some s' => s' | None => s end
  end.

(** src/nibble/convert.rs:165-167, 248-250 *)
Definition convert_args (f : node -> conv nexpr) : list node -> conv (list nexpr) :=
  fix go l :=
  match l with
  | [] => ret []
  | n :: l' => bind (f n) (fun e => bind (go l') (fun r => ret (e :: r)))
  end.
(** [convert_pair]: the separator of an item, src/nibble/convert.rs:188-196, 241-249 *)
Definition pair_span (p : option span) : span := match p with Some sp => sp | None => call_site end.
(** src/nibble/convert.rs:206-210, 259-263: each item with the separator before it. *)
Definition convert_rest (f : node -> conv nexpr) : span -> list (node * option span) -> conv (list (span * nexpr)) :=
  fix go punct l :=
  match l with
  | [] => ret []
  | (n, p) :: l' => bind (f n) (fun e => bind (go (pair_span p) l') (fun r => ret ((punct, e) :: r)))
  end.

Section Convert.
  Context (join : span -> span -> option span).
  (** [self.span()], src/nibble/convert.rs:105-376 *)
  Definition node_span (n : node) : span := join_spans join (to_tokens n).
  (** [self.span()], src/nibble/convert.rs:105-376 *)
  Definition stmt_span (s : stmt) : span := join_spans join (stmt_tokens s).

  (** The [Convert] implementations of src/nibble/convert.rs:105-309 *)
  Fixpoint convert (n : node) : conv nexpr :=
    match n with
    | NEpsilon sp => ret (EEps (Ann None sp))                                       (* convert.rs:146-150 *)
    | NLiteral v sp => ret (ELit (Ann None sp) v)                                   (* convert.rs:152-156 *)
    | NIdent i => fun ctx =>                                                        (* convert.rs:105-120 *)
      let nm := new_variable (Spanned i) in
      match lookup ctx nm with
      | Some index => (Ok (EVar (Ann (Some nm) (id_span i)) index), ctx)
      | None => (Err (UndeclaredName nm), ctx)
      end
    | NFix _ t => bind (convert t) (fun inner => ret (EFix (Ann None (node_span n)) inner))  (* convert.rs:122-135 *)
    | NParen _ e => convert e                                                       (* convert.rs:137-141 *)
    | NCall ts =>                                                                   (* convert.rs:163-186 *)
      match ts with
      | [] => fail (EmptyCall (node_span n))
      | t :: ts' =>
        bind (convert t) (fun on => bind (convert_args convert ts') (fun args =>
          match args with [] => ret on | _ => ret (ECall (Ann None (node_span n)) on args) end))
      end
    | NCatP ps =>                                                                   (* convert.rs:188-227 *)
      match ps with
      | [] => fail (EmptyCat (node_span n))
      | (x, p) :: ps' =>
        bind (convert x) (fun first => bind (convert_rest convert (pair_span p) ps') (fun rest =>
          match rest with [] => ret first | _ => ret (ECat (Ann None (node_span n)) first rest) end))
      end
    | NLabelled c label =>                                                          (* convert.rs:229-242 *)
      bind (convert c) (fun e =>
        let nm := merge (match label with Some (_, i) => Some (new_label (Spanned i)) | None => None end) (e_name e) in
        ret (set_ann (Ann nm (node_span n)) e))
    | NAltP ps =>                                                                   (* convert.rs:244-283 *)
      match ps with
      | [] => fail (EmptyAlt (node_span n))
      | (x, p) :: ps' =>
        bind (convert x) (fun first => bind (convert_rest convert (pair_span p) ps') (fun rest =>
          match rest with [] => ret first | _ => ret (EAlt (Ann None (node_span n)) first rest) end))
      end
    | NLambda _ args _ e =>                                                         (* convert.rs:285-301 *)
      let names := map (fun i => new_variable (Spanned i)) args in
      bind (with_variables names (convert e)) (fun inner => ret (ELam (Ann None (node_span n)) names inner))
    end.

  (** src/nibble/convert.rs:312-376 *)
  Fixpoint convert_stmt (s : stmt) : conv nexpr :=
    match s with
    | SGoal _ e _ =>                                                                (* convert.rs:312-322 *)
      bind (convert e) (fun inner =>
        ret (set_ann (Ann (merge (e_name inner) (Some (new_variable (Spanless (lit "Ast"))))) (stmt_span s)) inner))
    | SLet _ i args _ e _ next =>                                                   (* convert.rs:324-367 *)
      bind (match args with
            | [] => convert e
            | _ =>
              let names := map (fun j => new_variable (Spanned j)) args in
              bind (with_variables names (convert e)) (fun inner => ret (ELam (Ann None (stmt_span s)) names inner))
            end) (fun bound =>
      let nm := new_let (Spanned i) in
      bind (fun ctx => (Ok tt, push_variable nm ctx)) (fun _ =>
      bind (convert_stmt next) (fun body =>
        ret (ELet (Ann None (stmt_span s)) nm (set_name (Some nm) bound) body))))
    end.

  (** [nibble.convert(&mut Context::default())], src/main.rs:31-35 *)
  Definition convert_program (s : stmt) : res nexpr convert_error := fst (convert_stmt s []).
End Convert.
