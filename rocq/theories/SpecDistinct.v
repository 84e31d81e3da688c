(** * SpecDistinct: when do two generated types have the same definition? *)
From Verif Require Export SpecTable SpecSharing.

(** Two definitions a reader of the generated code would call the same: a
    struct for the same text, a struct with the same component types, an enum
    with the same branch types, a box of the same type.  ([pub type] aliases
    define no type.  [Epsilon] is a type of the library.) *)
Inductive same_definition : def -> def -> Prop :=
| same_lit s c c' : same_definition (DLit s c) (DLit s c')
| same_cat n n' p p' ids : same_definition (DCat n p ids) (DCat n' p' ids)
| same_alt p p' ids f f' n n' a a' c c' : same_definition (DAlt p ids f n a c) (DAlt p' ids f' n' a' c')
| same_box f : same_definition (DBox f) (DBox f).

(** Size of a grammar: one for each literal, variable, concatenation,
    alternation, fixed point and epsilon written in it. *)
Fixpoint grammar_size (g : gram) : nat :=
  match g with
  | GEps | GLit _ | GVar _ => 1
  | GCat gs | GAlt gs => S (list_sum (map grammar_size gs))
  | GFix g' => S (grammar_size g')
  end.

(** No epsilon, except in the bodies of fixed points. *)
Fixpoint no_epsilon (e : texpr) : Prop :=
  match e with
  | TEps _ _ => False
  | TCat _ l _ | TAlt _ l _ => (fix go l := match l with [] => True | x :: l' => no_epsilon x /\ go l' end) l
  | _ => True
  end.
(** No variable that is bound outside. *)
Definition closed (e : texpr) : Prop := forall n, ~ tfree n e.

(** Not written [r#...]. *)
Definition unraw (n : name) : Prop := match n_content n with Spanned i => id_raw i = false | Spanless _ => True end.
(** No raw identifier among the names of an expression. *)
Definition no_raw (e : texpr) : Prop := Forall unraw (t_names e).
