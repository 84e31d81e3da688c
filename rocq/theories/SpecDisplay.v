(** * SpecDisplay: what the text of an expression tells. *)
From Coq Require Import String.
From Verif Require Export Ast Messages.
From Coq Require Import List NArith.
Open Scope list_scope.

(** Two expressions that differ in nothing but positions, kinds and rawness of
    names beyond their text, and the indices of variables that have a name. *)
Definition same_name (o o' : option name) : Prop := option_map name_display o = option_map name_display o'.
Inductive alike : nexpr -> nexpr -> Prop :=
| al_eps a a' : same_name (a_name a) (a_name a') -> alike (EEps a) (EEps a')
| al_lit a a' s : same_name (a_name a) (a_name a') -> alike (ELit a s) (ELit a' s)
| al_cat a a' f f' r r' : same_name (a_name a) (a_name a') -> alike f f' -> Forall2 (fun x y => alike (snd x) (snd y)) r r' -> alike (ECat a f r) (ECat a' f' r')
| al_alt a a' f f' r r' : same_name (a_name a) (a_name a') -> alike f f' -> Forall2 (fun x y => alike (snd x) (snd y)) r r' -> alike (EAlt a f r) (EAlt a' f' r')
| al_fix a a' i i' : same_name (a_name a) (a_name a') -> alike i i' -> alike (EFix a i) (EFix a' i')
| al_var a a' i i' : same_name (a_name a) (a_name a') -> a_name a <> None \/ i = i' -> alike (EVar a i) (EVar a' i')
| al_call a a' o o' l l' : same_name (a_name a) (a_name a') -> alike o o' -> Forall2 alike l l' -> alike (ECall a o l) (ECall a' o' l')
| al_lam a a' n n' i i' : same_name (a_name a) (a_name a') -> map name_display n = map name_display n' -> alike i i' -> alike (ELam a n i) (ELam a' n' i')
| al_let a a' n n' x x' y y' : same_name (a_name a) (a_name a') -> name_display n = name_display n' -> alike x x' -> alike y y' -> alike (ELet a n x y) (ELet a' n' x' y').

(** A word: not empty, without space, brackets and the characters [;], [,],
    [/], [!] and [']; and not one of the five that the text uses itself. *)
Definition word_char (c : char) : Prop := ~ In c (lit " ();,/!'").
Definition wordlike (w : rstr) : Prop := w <> [] /\ Forall word_char w /\ ~ In w [lit "_"; lit "let"; lit "."; lit "|"; lit ":"].

(** An expression with words for literals and names, where no literal is the
    name of a variable, with two parts in every sequence and alternation and
    an argument in every call. *)
Section Tame.
  Variable L N : rstr -> Prop.
  Definition name_fits (n : name) : Prop := wordlike (name_display n).
  Definition ann_fits (a : ann) : Prop := match a_name a with Some n => name_fits n | None => True end.
  Inductive tame : nexpr -> Prop :=
  | tm_eps a : ann_fits a -> tame (EEps a)
  | tm_lit a s : ann_fits a -> wordlike s -> L s -> tame (ELit a s)
  | tm_cat a f r : ann_fits a -> tame f -> Forall (fun x => tame (snd x)) r -> r <> [] -> tame (ECat a f r)
  | tm_alt a f r : ann_fits a -> tame f -> Forall (fun x => tame (snd x)) r -> r <> [] -> tame (EAlt a f r)
  | tm_fix a i : ann_fits a -> tame i -> tame (EFix a i)
  | tm_var a i : ann_fits a -> (forall n, a_name a = Some n -> N (name_display n)) -> tame (EVar a i)
  | tm_call a o l : ann_fits a -> tame o -> Forall tame l -> l <> [] -> tame (ECall a o l)
  | tm_lam a n i : ann_fits a -> Forall name_fits n -> tame i -> tame (ELam a n i)
  | tm_let a n x y : ann_fits a -> name_fits n -> tame x -> tame y -> tame (ELet a n x y).
End Tame.
