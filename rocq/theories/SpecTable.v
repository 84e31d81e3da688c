(** * SpecTable: the values of the types in a table of type definitions. *)
From Verif Require Export GenSem.

(** [derives tab id t]: [t] is a (finite) value of the type [id]. *)
Inductive derives (tab : table) : nat -> tree -> Prop :=
| derives_eps id : def_of tab id = Some DEps -> derives tab id NEps
| derives_lit id s c : def_of tab id = Some (DLit s c) -> derives tab id (NLit s)
| derives_cat id n p ids ts : def_of tab id = Some (DCat n p ids) -> derives_seq tab ids ts -> derives tab id (NCat ts)
| derives_alt id p ids f n a c k j t : def_of tab id = Some (DAlt p ids f n a c) ->
    nth_error ids k = Some j -> derives tab j t -> derives tab id (NAlt k t)
| derives_fix id j t : def_of tab id = Some (DFix (Some j)) -> derives tab j t -> derives tab id t
| derives_box id f t : def_of tab id = Some (DBox f) -> derives tab f t -> derives tab id (NBox t)
with derives_seq (tab : table) : list nat -> list tree -> Prop :=
| derives_nil : derives_seq tab [] []
| derives_cons id ids t ts : derives tab id t -> derives_seq tab ids ts -> derives_seq tab (id :: ids) (t :: ts).

Scheme derives_mind := Induction for derives Sort Prop
with derives_seq_mind := Induction for derives_seq Sort Prop.
Combined Scheme derives_mutind from derives_mind, derives_seq_mind.

(** Type names mentioned by the definition of a type (or by its own name). *)
Definition mentions (tab : table) (id : nat) : list nat :=
  match def_of tab id with
  | Some (DCat _ _ ids) => ids
  | Some (DAlt _ ids _ _ _ _) => ids
  | Some (DFix (Some j)) => [j]
  | Some (DBox f) => [f]
  | _ => []
  end.
(** Those stored by value, not behind a [Box]. *)
Definition contains (tab : table) (id : nat) : list nat :=
  match def_of tab id with
  | Some (DBox _) => []
  | _ => mentions tab id
  end.

(** All names in an expression. *)
Fixpoint t_names (e : texpr) : list name :=
  (match t_name e with Some n => [n] | None => [] end) ++
  match e with
  | TCat _ l _ | TAlt _ l _ => flat_map t_names l
  | TFix _ i => t_names i
  | _ => []
  end.
