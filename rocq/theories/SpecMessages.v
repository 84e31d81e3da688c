(** * SpecMessages: what the compiler tells its user, and when that is true. *)
From Coq Require Import String.
From Verif Require Export SpecDefect SpecBeta SpecScope SpecOrigin.
From Coq Require Import List.
Open Scope list_scope.

(** Everything the compiler can complain about after parsing. *)
Inductive complaint :=
| Undeclared (shown : rstr)
| NotFunction
| Arity (takes supplied : nat)
| StartEmpty
| NextUnclear
| TwoEmpty
| SameStart
| LeftRecursive (shown : rstr)
| Unbound (shown : rstr)
| FunctionLeft
| FixOfNothing.

(** The sentence for each, in English with the right number. *)
Definition arguments (n : nat) : rstr := if Nat.eqb n 1 then lit "argument" else lit "arguments".
Definition were (n : nat) : rstr := if Nat.eqb n 1 then lit "was" else lit "were".
Definition quoted (s : rstr) : rstr := lit "`" ++ s ++ lit "`".
Definition sentence (c : complaint) : rstr :=
  match c with
  | Undeclared s => lit "undeclared name: " ++ quoted s
  | NotFunction => lit "call expected a function"
  | Arity m n => lit "this function takes " ++ dec m ++ lit " " ++ arguments m ++ lit " but " ++ dec n ++ lit " " ++ were n ++ lit " supplied"
  | StartEmpty => lit "first part of concatenation is nullable"
  | NextUnclear => lit "first set overlaps with preceding flast set"
  | TwoEmpty => lit "both branches are nullable"
  | SameStart => lit "first sets of both branches overlap"
  | LeftRecursive s => lit "usage of guarded variable: " ++ quoted s
  | Unbound s => lit "unbound variable: " ++ quoted s
  | FunctionLeft => lit "unexpected lambda"
  | FixOfNothing => lit "expected a lambda expression"
  end.

(** An identifier as it is written. *)
Definition written (i : ident) : rstr := (if id_raw i then lit "r#" else []) ++ id_sym i.
(** A name of the program as it is written, or [Ast]. *)
Definition shows_name (ts : list token) (s : rstr) : Prop := (exists i, occurs (TkIdent i) ts /\ s = written i) \/ s = lit "Ast".

(** Somewhere in a grammar; the scope is that of the place. *)
Inductive somewhere (K : scope -> gram -> Prop) : scope -> gram -> Prop :=
| sw_here r g : K r g -> somewhere K r g
| sw_first r g gs : somewhere K r g -> somewhere K r (GCat (g :: gs))
| sw_rest r g gs h : In h gs -> somewhere K (behind r) h -> somewhere K r (GCat (g :: gs))
| sw_alt r gs h : In h gs -> somewhere K r h -> somewhere K r (GAlt gs)
| sw_fix r g : somewhere K (enter g r) g -> somewhere K r (GFix g).

(** What is wrong at the place, by complaint. *)
Definition wrong (c : complaint) (r : scope) (g : gram) : Prop :=
  match c with
  | StartEmpty => exists h hs, g = GCat (h :: hs) /\ lang_of (langs r) h []
  | NextUnclear => exists gs h rest u a v w, g = GCat (gs ++ h :: rest) /\ gs <> [] /\
      lang_of (langs r) (GCat gs) u /\ lang_of (langs r) (GCat gs) (u ++ a :: v) /\ lang_of (langs r) h (a :: w)
  | TwoEmpty => exists l x m y n, g = GAlt (l ++ x :: m ++ y :: n) /\ lang_of (langs r) x [] /\ lang_of (langs r) y []
  | SameStart => exists l x m y n a v w, g = GAlt (l ++ x :: m ++ y :: n) /\ lang_of (langs r) x (a :: v) /\ lang_of (langs r) y (a :: w)
  | LeftRecursive _ => exists i L, g = GVar i /\ nth_error r i = Some (false, L)
  | Unbound _ => exists i, g = GVar i /\ List.length r <= i
  | _ => False
  end.
