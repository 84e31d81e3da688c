(** * Names: src/chomp/name.rs *)
From Verif Require Export Base.

(** [proc_macro2::Ident]: symbol, whether it is written [r#...], span. *)
Record ident := Ident { id_raw : bool; id_sym : rstr; id_span : span }.

(** src/chomp/name.rs:11-15 [Content] *)
Inductive content :=
| Spanned (i : ident)
| Spanless (s : rstr).

(** [Ident == Ident] of proc_macro2: same text including the [r#] prefix, the
    span is ignored. *)
Definition ident_eqb (a b : ident) : bool :=
  Bool.eqb (id_raw a) (id_raw b) && rstr_eqb (id_sym a) (id_sym b).

(** src/chomp/name.rs:61-70 [PartialEq for Content] *)
Definition content_eqb (a b : content) : bool :=
  match a, b with
  | Spanned me, Spanned them => ident_eqb me them
  | Spanned me, Spanless them => rstr_eqb (id_sym me) them
  | Spanless me, Spanned them => rstr_eqb (id_sym them) me
  | Spanless me, Spanless them => rstr_eqb me them
  end.

(** src/chomp/name.rs:83-90 [Hash for Content]: the string that is fed to the
    hasher. *)
Definition content_hash_key (c : content) : rstr :=
  match c with
  | Spanned i => id_sym i
  | Spanless s => s
  end.

(** src/chomp/name.rs:17-24 [Spanned for Content] *)
Definition content_span (c : content) : span :=
  match c with
  | Spanned i => id_span i
  | Spanless _ => call_site
  end.

(** src/chomp/name.rs:113-118 [Kind] *)
Inductive kind := KLabel | KLet | KVariable.

(** src/chomp/name.rs:120-134 [PartialOrd for Kind] *)
Definition kind_cmp (a b : kind) : comparison :=
  match a, b with
  | KLabel, KLabel | KLet, KLet | KVariable, KVariable => Eq
  | KLabel, KLet | KLabel, KVariable | KLet, KVariable => Gt
  | KLet, KLabel | KVariable, KLabel | KVariable, KLet => Lt
  end.

Definition kind_ge (a b : kind) : bool :=
  match kind_cmp a b with Lt => false | _ => true end.

(** derived [PartialEq] of src/chomp/name.rs:113 *)
Definition kind_eqb (a b : kind) : bool :=
  match a, b with
  | KLabel, KLabel | KLet, KLet | KVariable, KVariable => true
  | _, _ => false
  end.

(** src/chomp/name.rs:136-140 [Name] *)
Record name := Name { n_content : content; n_kind : kind }.

(** derived [PartialEq] of src/chomp/name.rs:136 *)
Definition name_eqb (a b : name) : bool :=
  content_eqb (n_content a) (n_content b) && kind_eqb (n_kind a) (n_kind b).

(** [Option<Name>] equality *)
Definition oname_eqb (a b : option name) : bool :=
  match a, b with
  | None, None => true
  | Some x, Some y => name_eqb x y
  | _, _ => false
  end.

(** src/chomp/name.rs:143-162 *)
Definition new_variable (c : content) : name := Name c KVariable.
Definition new_let (c : content) : name := Name c KLet.
Definition new_label (c : content) : name := Name c KLabel.

(** src/chomp/name.rs:164-176 [Name::merge] *)
Definition merge (this that : option name) : option name :=
  match this, that with
  | None, _ => that
  | Some this', None => Some this'
  | Some this', Some that' =>
    if kind_ge (n_kind this') (n_kind that') then Some this' else Some that'
  end.

(** src/chomp/name.rs:178-180 [Name::merge_all] *)
Definition merge_all (l : list (option name)) : option name := fold_left merge l None.
