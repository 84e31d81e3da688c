(** * SpecArith: arithmetic expressions and their values.

      expr   ::= prod | expr "+" ws prod | expr "-" ws prod
      prod   ::= term | prod "*" ws term | prod "/" ws term
      term   ::= (number | "-" ws number | "(" ws expr ")") ws
      number ::= digit+            ws ::= " "*
*)
From Coq Require Import String ZArith.
From Verif Require Export Base.
From Coq Require Import List.
Open Scope list_scope.

(** Arithmetic that may fail. *)
Record calculator := Calc {
  c_add : Z -> Z -> option Z;
  c_sub : Z -> Z -> option Z;
  c_mul : Z -> Z -> option Z;
  c_div : Z -> Z -> option Z;
  c_neg : Z -> option Z }.
Definition op2 (f : Z -> Z -> option Z) (x y : option Z) : option Z :=
  match x, y with Some a, Some b => f a b | _, _ => None end.
Definition op1 (f : Z -> option Z) (x : option Z) : option Z := match x with Some a => f a | None => None end.

Definition blank (w : rstr) : Prop := Forall (eq 32%N) w.
Definition is_digit (c : char) : Prop := (48 <= c <= 57)%N.
Definition digit_value (c : char) : Z := Z.of_N (c - 48).
Section Values.
  Variable C : calculator.
  (** The number written in decimal: from the left, ten times what comes
      before plus the digit. *)
  Fixpoint decimal (acc : option Z) (w : rstr) : option Z :=
    match w with
    | [] => acc
    | c :: w' => decimal (op2 (c_add C) (op2 (c_mul C) acc (Some 10%Z)) (Some (digit_value c))) w'
    end.
  (** [Expr w v]: the text [w] is an expression; [v] is its value, [None] if
      the calculation fails.  Operators associate to the left. *)
  Inductive Number : rstr -> option Z -> Prop :=
  | number w : w <> [] -> Forall is_digit w -> Number w (decimal (Some 0%Z) w).
  Inductive Term : rstr -> option Z -> Prop :=
  | term_num w v s : Number w v -> blank s -> Term (w ++ s) v
  | term_neg s w v s' : blank s -> Number w v -> blank s' -> Term (lit "-" ++ s ++ w ++ s') (op1 (c_neg C) v)
  | term_paren s w v s' : blank s -> Expr w v -> blank s' -> Term (lit "(" ++ s ++ w ++ lit ")" ++ s') v
  with Prod : rstr -> option Z -> Prop :=
  | prod_term w v : Term w v -> Prod w v
  | prod_mul w v s w' v' : Prod w v -> blank s -> Term w' v' -> Prod (w ++ lit "*" ++ s ++ w') (op2 (c_mul C) v v')
  | prod_div w v s w' v' : Prod w v -> blank s -> Term w' v' -> Prod (w ++ lit "/" ++ s ++ w') (op2 (c_div C) v v')
  with Expr : rstr -> option Z -> Prop :=
  | expr_prod w v : Prod w v -> Expr w v
  | expr_add w v s w' v' : Expr w v -> blank s -> Prod w' v' -> Expr (w ++ lit "+" ++ s ++ w') (op2 (c_add C) v v')
  | expr_sub w v s w' v' : Expr w v -> blank s -> Prod w' v' -> Expr (w ++ lit "-" ++ s ++ w') (op2 (c_sub C) v v').
End Values.

(** Exact arithmetic on integers, division towards zero. *)
Definition exact : calculator :=
  Calc (fun x y => Some (x + y)%Z) (fun x y => Some (x - y)%Z) (fun x y => Some (x * y)%Z)
       (fun x y => if (y =? 0)%Z then None else Some (Z.quot x y)) (fun x => Some (- x)%Z).
(** The same, failing when a result does not fit in 64 bits. *)
Definition fits (z : Z) : bool := (- 2 ^ 63 <=? z)%Z && (z <? 2 ^ 63)%Z.
Definition limit (x : option Z) : option Z := match x with Some z => if fits z then Some z else None | None => None end.
Definition checked : calculator :=
  Calc (fun x y => limit (c_add exact x y)) (fun x y => limit (c_sub exact x y)) (fun x y => limit (c_mul exact x y))
       (fun x y => limit (c_div exact x y)) (fun x => limit (c_neg exact x)).
(** The same, reducing results to 64 bits (division still fails). *)
Definition wrapped (z : Z) : Z := let m := (z mod 2 ^ 64)%Z in if (m <? 2 ^ 63)%Z then m else (m - 2 ^ 64)%Z.
Definition wrapping : calculator :=
  Calc (fun x y => Some (wrapped (x + y))) (fun x y => Some (wrapped (x - y))) (fun x y => Some (wrapped (x * y)))
       (c_div checked) (fun x => Some (wrapped (- x))).
Definition machine (checks : bool) : calculator := if checks then checked else wrapping.
