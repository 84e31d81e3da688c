(** * SpecCase: names of programs, as far as their spelling matters to the
    generated code. *)
From Coq Require Import String.
From Verif Require Export Nibble.
From Coq Require Import List.
Open Scope list_scope.

(** The names written in a program: those it declares, those it uses and its
    labels; [_] is a name only if it is a label. *)
Fixpoint node_idents (n : node) : list ident :=
  match n with
  | NEpsilon _ | NLiteral _ _ => []
  | NIdent i => [i]
  | NFix _ t => node_idents t
  | NParen _ e => node_idents e
  | NCall ts => flat_map node_idents ts
  | NCatP ps | NAltP ps => flat_map (fun x => node_idents (fst x)) ps
  | NLabelled c l => node_idents c ++ match l with Some (_, i) => [i] | None => [] end
  | NLambda _ args _ e => args ++ node_idents e
  end.
Fixpoint stmt_idents (s : stmt) : list ident :=
  match s with
  | SGoal _ e _ => node_idents e
  | SLet _ nm args _ e _ next => nm :: args ++ node_idents e ++ stmt_idents next
  end.

(** The letters and digits of a name, in lower case. *)
Definition lower (c : char) : char := if (N.leb 65 c && N.leb c 90)%bool then (c + 32)%N else c.
Definition letters (s : rstr) : rstr := map lower (filter (fun c => negb (N.eqb c 95)) s).

(** The name does not end in a digit, and is none of the six words. *)
Definition clean (s : rstr) : Prop :=
  (forall u x, letters s = u ++ [x] -> ~ (48 <= x <= 57)%N)
  /\ ~ In (letters s) [lit "lit"; lit "cat"; lit "alt"; lit "fix"; lit "branch"; lit "part"].

(** The name has letters, and a letter before the first digit. *)
Definition speakable (s : rstr) : Prop :=
  (exists c w, letters s = c :: w /\ (97 <= c <= 122)%N)
  /\ Forall (fun c => (97 <= c <= 122)%N \/ (48 <= c <= 57)%N) (letters s).
