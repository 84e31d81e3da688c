(** * ArithGen: chomp-bench/src/arith/nibble.rs, the generated arithmetic parser. *)
From Coq Require Import String ZArith.
From Verif Require Export Source Main GenSem Arith.
From Coq Require Import List.
Open Scope list_scope.

(** chomp-bench/src/arith/nibble.rs:4-21, verbatim. *)
Definition arith_source : string := "
    let opt  some = _ : None | some;
    let plus iter = !(/plus/ iter . (opt plus));
    let star iter = opt (plus iter);

    let ws = star "" "";
    let list inner p = !(/list/ inner . opt (p . ws . list));

    let digit = ""0"" | ""1"" | ""2""| ""3"" | ""4"" | ""5"" | ""6"" | ""7"" | ""8"" | ""9"";
    let number = plus digit;
    let term expr =
        (( number                : Pos
         | ""-"" . ws . number     : Neg
         | ""("" . ws . expr . "")"" : Parens
         ) : RawTerm) . ws;
    let prod  expr = list (term expr) (""*""|""/"");
    let arith expr = list (prod expr) (""+""|""-"");

    match !(/rec/ "" "".rec | !arith);
"%string.

(** What the macro generates: the table of types and the type of [Ast]. *)
Notation arith_chomp := (chomp (fun _ _ => None) heck 100 (tokens_of arith_source)).
(** the code generated for chomp-bench/src/arith/nibble.rs:4-21 (chomp-macro/src/lib.rs) *)
Definition arith_tab := Eval vm_compute in match arith_chomp with Ok (tab, _, _) => tab | _ => [] end.
(** the code generated for chomp-bench/src/arith/nibble.rs:4-21 (chomp-macro/src/lib.rs) *)
Definition arith_root := Eval vm_compute in match arith_chomp with Ok (_, root, _) => root | _ => 0 end.

(** [str::parse::<i64>], of the standard library: an optional sign, at least
    one digit, and a value that fits. *)
(** std [str::parse::<i64>], chomp-bench/src/arith/nibble.rs:72-82 *)
Fixpoint digits_value (acc : Z) (s : rstr) : option Z :=
  match s with
  | [] => Some acc
  | c :: s' => match digit_of c with Some d => digits_value (10 * acc + d)%Z s' | None => None end
  end.
(** std [str::parse::<i64>], chomp-bench/src/arith/nibble.rs:72-82 *)
Definition parse_i64 (s : rstr) : option Z :=
  let number (s : rstr) := match s with [] => None | _ => digits_value 0 s end in
  let v :=
    match s with
    | c :: s' => if N.eqb c (chr "-") then option_map Z.opp (number s') else if N.eqb c (chr "+") then number s' else number s
    | [] => None
    end in
  match v with Some z => if in_i64 z then Some z else None | None => None end.

(** [From<..> for i64].  A value of a generated type is a [tree] (GenSem.v):
    structs are [NCat], enums [NAlt] with the number of the variant, boxes
    [NBox].  [None] is a panic (or a tree that is not of the type).
    [to_string] is [yield], which is what it returns (C23). *)
Section Value.
  Variable checks : bool.
  (** chomp-bench/src/arith/nibble.rs:72-76 [From<Pos1>], 78-82 [From<Number1>] *)
  Definition number_of (t : tree) : option Z := parse_i64 (yield t).
  (** chomp-bench/src/arith/nibble.rs:38-44, 51-57: the closures of the folds;
      [j] is the variant of [P2], [P1]. *)
  Definition arith_op (j : nat) (acc v : Z) : option Z :=
    match j with 0 => i64_add checks acc v | _ => i64_sub checks acc v end.
  (** chomp-bench/src/arith/nibble.rs:51-57 *)
  Definition prod_op (j : nat) (acc v : Z) : option Z :=
    match j with 0 => i64_mul checks acc v | _ => i64_div acc v end.

  (** chomp-bench/src/arith/nibble.rs:35-46 [From<Arith1>], with the iterator
      of lines 84-97; 48-60 [From<Prod1>], with 99-112; 62-70 [From<Term1>]. *)
  Fixpoint of_arith (t : tree) {struct t} : option Z :=
    match t with
    | NCat [prod; opt] => match of_prod prod with Some acc => arith_rest acc opt | None => None end
    | _ => None
    end
  with arith_rest (acc : Z) (t : tree) {struct t} : option Z :=
    match t with
    | NAlt 0 _ => Some acc                                           (* None1 *)
    | NAlt 1 (NCat [NAlt j _; _; NBox (NCat [prod; opt])]) =>        (* Some1: p1, ws1, list1 *)
      match of_prod prod with
      | Some v => match arith_op j acc v with Some acc' => arith_rest acc' opt | None => None end
      | None => None
      end
    | _ => None
    end
  with of_prod (t : tree) {struct t} : option Z :=
    match t with
    | NCat [term; opt] => match of_term term with Some acc => prod_rest acc opt | None => None end
    | _ => None
    end
  with prod_rest (acc : Z) (t : tree) {struct t} : option Z :=
    match t with
    | NAlt 0 _ => Some acc
    | NAlt 1 (NCat [NAlt j _; _; NBox (NCat [term; opt])]) =>
      match of_term term with
      | Some v => match prod_op j acc v with Some acc' => prod_rest acc' opt | None => None end
      | None => None
      end
    | _ => None
    end
  with of_term (t : tree) {struct t} : option Z :=
    match t with
    | NCat [NAlt 0 n; _] => number_of n                                                               (* Pos1 *)
    | NCat [NAlt 1 (NCat [_; _; n]); _] => match number_of n with Some x => i64_neg checks x | None => None end  (* Neg1 *)
    | NCat [NAlt 2 (NCat [_; _; NBox e; _]); _] => of_arith e                                         (* Parens1 *)
    | _ => None
    end.
  (** chomp-bench/src/arith/nibble.rs:24-33 [From<Ast>] *)
  Fixpoint of_ast (t : tree) : option Z :=
    match t with
    | NAlt 0 (NCat [_; NBox t']) => of_ast t'
    | NAlt 1 t' => of_arith t'
    | _ => None
    end.
End Value.
