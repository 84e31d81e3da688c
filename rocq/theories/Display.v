(** * Display: the [Display] implementations of src/chomp/ast/mod.rs. *)
From Coq Require Import String.
From Verif Require Export Ast Messages.
From Coq Require Import List.
Open Scope list_scope.

(** src/chomp/ast/mod.rs:261-274 [Display for NamedExpression], given the text
    of its [Expression]. *)
Definition named_text (e : nexpr) (t : rstr) : rstr :=
  match e_name e with
  | Some n =>
    match e with
    | EVar _ _ => name_display n
    | _ => lit "(" ++ t ++ lit " : " ++ name_display n ++ lit ")"
    end
  | None => t
  end.

(** src/chomp/ast/mod.rs:123-136, the names of [Display for Lambda] *)
Fixpoint more_names (l : list name) : rstr :=
  match l with
  | [] => []
  | n :: l' => lit ", " ++ name_display n ++ more_names l'
  end.
Definition names_text (l : list name) : rstr :=
  match l with
  | [] => []
  | n :: l' => name_display n ++ more_names l'
  end.

(** src/chomp/ast/mod.rs:184-198 [Display for Expression], with those of [Cat]
    (21-29), [Alt] (51-59), [Fix] (80-84), [Variable] (91-95), [Call] (104-114),
    [Lambda] (123-136) and [Let] (146-150) in its cases; a literal is a
    [String] and is written as it is. *)
Fixpoint expr_text (e : nexpr) : rstr :=
  let seps (sep : rstr) := fix go (l : list (span * nexpr)) : rstr :=
    match l with
    | [] => []
    | x :: l' => sep ++ named_text (snd x) (expr_text (snd x)) ++ go l'
    end in
  match e with
  | EEps _ => lit "_"
  | ELit _ s => s
  | ECat _ f r => lit "(" ++ named_text f (expr_text f) ++ seps (lit " . ") r ++ lit ")"
  | EAlt _ f r => lit "(" ++ named_text f (expr_text f) ++ seps (lit " | ") r ++ lit ")"
  | EFix _ i => lit "!" ++ named_text i (expr_text i)
  | EVar _ i => lit "'" ++ dec i
  | ECall _ o l =>
    lit "(" ++ named_text o (expr_text o) ++
    (fix go (l : list nexpr) : rstr :=
       match l with
       | [] => []
       | x :: l' => lit " " ++ named_text x (expr_text x) ++ go l'
       end) l ++ lit ")"
  | ELam _ ns i => lit "/" ++ names_text ns ++ lit "/ " ++ named_text i (expr_text i)
  | ELet _ n x y => lit "let " ++ name_display n ++ lit " = " ++ named_text x (expr_text x) ++ lit "; " ++ named_text y (expr_text y)
  end.
Definition display (e : nexpr) : rstr := named_text e (expr_text e).
