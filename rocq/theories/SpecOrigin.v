(** * SpecOrigin: where a position or a name comes from. *)
From Coq Require Import String.
From Verif Require Export Nibble Lower.
From Coq Require Import List.
Open Scope list_scope.

(** A token of the program, also inside parentheses. *)
Inductive occurs (t : token) : list token -> Prop :=
| occurs_here ts : In t ts -> occurs t ts
| occurs_inside sp ts ts' : In (TkGroup sp ts) ts' -> occurs t ts -> occurs t ts'.

(** A position in the program: that of a token, or from one token to another
    where positions can be joined. *)
Definition place (join : span -> span -> option span) (ts : list token) (sp : span) : Prop :=
  (exists t, occurs t ts /\ sp = token_span t)
  \/ (exists t u, occurs t ts /\ occurs u ts /\ join (token_span t) (token_span u) = Some sp).

(** The position of this punctuation somewhere in the program. *)
Definition punct_at (c : string) (ts : list token) (sp : span) : Prop := occurs (pt c sp) ts.

(** A name written in the program, or [Ast]. *)
Definition name_in (ts : list token) (n : name) : Prop :=
  match n_content n with
  | Spanned i => occurs (TkIdent i) ts
  | Spanless s => s = lit "Ast"
  end.

(** ** Identifiers of the generated code *)
(** A word made from one of the names in [N] by this change of case. *)
Definition from_name (N : name -> Prop) (conv : rstr -> option rstr) (p : rstr) : Prop := exists n, N n /\ conv (name_text n) = Some p.
(** A type: a word and a number. *)
Definition type_word (cs : casing) (N : name -> Prop) (s : rstr) : Prop :=
  exists p k, s = p ++ dec k /\ (In p [lit "Lit"; lit "Cat"; lit "Alt"; lit "Fix"] \/ from_name N (camel cs) p).
(** The fields of a struct and the variants of an enum: a word and a number. *)
Definition part_word (cs : casing) (N : name -> Prop) (d : def) : Prop :=
  match d with
  | DCat _ parts _ => Forall (fun s => exists p k, s = p ++ dec k /\ (p = lit "part" \/ from_name N (snake cs) p)) parts
  | DAlt parts _ _ _ _ _ => Forall (fun s => exists p k, s = p ++ dec k /\ (p = lit "Branch" \/ from_name N (camel cs) p)) parts
  | _ => True
  end.
