(** * SpecPos: positions and cursors, independently of the code. *)
From Verif Require Export Base.

(** LF, VT, FF, NEL, LS, PS. *)
Definition line_terminators : list char := [10; 11; 12; 133; 8232; 8233]%N.

(** A character ends a line when it is a line terminator, or a carriage
    return that is not followed by a line feed. *)
Definition ends_line (c : char) (next : option char) : bool :=
  existsb (N.eqb c) line_terminators
  || (N.eqb c 13 && negb (match next with Some d => N.eqb d 10 | None => false end)).

Definition next_of (u : rstr) (next : option char) : option char :=
  match u with [] => next | c :: _ => Some c end.

(** Number of line ends in [u] when [next] follows it. *)
Fixpoint line_ends (u : rstr) (next : option char) : nat :=
  match u with
  | [] => 0
  | c :: u' => (if ends_line c (next_of u' next) then 1 else 0) + line_ends u' next
  end.

(** The longest suffix of [u] without a line end. *)
Fixpoint last_line (u : rstr) (next : option char) : rstr :=
  match u with
  | [] => []
  | c :: u' => if Nat.eqb (line_ends (c :: u') next) 0 then c :: u' else last_line u' next
  end.

(** Longest common prefix. *)
Fixpoint lcp (a b : rstr) : rstr :=
  match a, b with
  | x :: a', y :: b' => if N.eqb x y then x :: lcp a' b' else []
  | _, _ => []
  end.

(** The longest prefix whose characters satisfy [f]. *)
Fixpoint prefix_while (f : char -> bool) (s : rstr) : rstr :=
  match s with
  | [] => []
  | c :: s' => if f c then c :: prefix_while f s' else []
  end.
