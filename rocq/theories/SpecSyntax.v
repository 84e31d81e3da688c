(** * SpecSyntax: the nibble programs a parser can produce, by the grammar of
    the language:

      term   ::= "_" | ident | string | "!" term | "(" expr ")"
      call   ::= term+
      cat    ::= call ("." call)*
      labelled ::= cat (":" ident)?
      alt    ::= labelled ("|" labelled)*
      expr   ::= alt | "/" ident+ "/" alt
      stmt   ::= "match" expr ";" | "let" ident ident* "=" expr ";" stmt

    An identifier used as a term is any word but "_"; parameters are not
    reserved words. *)
From Coq Require Import String.
From Verif Require Export Nibble.
From Coq Require Import List.
Open Scope list_scope.

Definition underscore (i : ident) : Prop := id_raw i = false /\ id_sym i = lit "_".
Definition parameter (i : ident) : Prop := id_raw i = false -> forall s, In s reserved -> id_sym i <> lit s.

Inductive level := LvTerm | LvCall | LvCat | LvLabelled | LvAlt | LvExpr.
(** A list with separators between its items and none at its end. *)
Inductive punctuated (P : node -> Prop) : list (node * option span) -> Prop :=
| punctuated_last x : P x -> punctuated P [(x, None)]
| punctuated_more x sp l : P x -> punctuated P l -> punctuated P ((x, Some sp) :: l).

Inductive wf : level -> node -> Prop :=
| wf_eps sp : wf LvTerm (NEpsilon sp)
| wf_ident i : ~ underscore i -> wf LvTerm (NIdent i)
| wf_lit v sp : wf LvTerm (NLiteral v sp)
| wf_fix b t : wf LvTerm t -> wf LvTerm (NFix b t)
| wf_paren sp e : wf LvExpr e -> wf LvTerm (NParen sp e)
| wf_call t ts : wf LvTerm t -> Forall (wf LvTerm) ts -> wf LvCall (NCall (t :: ts))
| wf_cat ps : punctuated (wf LvCall) ps -> wf LvCat (NCatP ps)
| wf_labelled c l : wf LvCat c -> wf LvLabelled (NLabelled c l)
| wf_alt ps : punctuated (wf LvLabelled) ps -> wf LvAlt (NAltP ps)
| wf_expr e : wf LvAlt e -> wf LvExpr e
| wf_lambda l arg args r e : parameter arg -> Forall parameter args -> wf LvAlt e -> wf LvExpr (NLambda l (arg :: args) r e).

Inductive wf_stmt : stmt -> Prop :=
| wf_goal k e semi : wf LvExpr e -> wf_stmt (SGoal k e semi)
| wf_let k nm args eq e semi next :
    Forall parameter args -> wf LvExpr e -> wf_stmt next -> wf_stmt (SLet k nm args eq e semi next).
