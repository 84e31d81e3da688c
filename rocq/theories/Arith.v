(** * Arith: chomp-bench/src/arith/mod.rs, the hand-written arithmetic parser. *)
From Coq Require Import String ZArith.
From Verif Require Export Runtime.
From Coq Require Import List.
Open Scope list_scope.

(** [i64] arithmetic.  [checks] says whether the crate is compiled with
    overflow checks (debug builds) or not (release builds, which wrap).  [None]
    is a panic. *)
(** std [i64] arithmetic, chomp-bench/src/arith/mod.rs:13-49, 70, 97, 101, 115, 119 *)
Definition i64_min : Z := (- 2 ^ 63)%Z.
(** std [i64] arithmetic, chomp-bench/src/arith/mod.rs:13-49, 70, 97, 101, 115, 119 *)
Definition i64_max : Z := (2 ^ 63 - 1)%Z.
(** std [i64] arithmetic, chomp-bench/src/arith/mod.rs:13-49, 70, 97, 101, 115, 119 *)
Definition in_i64 (z : Z) : bool := (i64_min <=? z)%Z && (z <=? i64_max)%Z.
(** std [i64] arithmetic, chomp-bench/src/arith/mod.rs:13-49, 70, 97, 101, 115, 119 *)
Definition wrap (z : Z) : Z := ((z + 2 ^ 63) mod 2 ^ 64 - 2 ^ 63)%Z.
(** std [i64] arithmetic, chomp-bench/src/arith/mod.rs:13-49, 70, 97, 101, 115, 119 *)
Definition norm (checks : bool) (z : Z) : option Z :=
  if in_i64 z then Some z else if checks then None else Some (wrap z).
(** std [i64] arithmetic, chomp-bench/src/arith/mod.rs:13-49, 70, 97, 101, 115, 119 *)
Definition i64_add (k : bool) (x y : Z) : option Z := norm k (x + y).
(** std [i64] arithmetic, chomp-bench/src/arith/mod.rs:13-49, 70, 97, 101, 115, 119 *)
Definition i64_sub (k : bool) (x y : Z) : option Z := norm k (x - y).
(** std [i64] arithmetic, chomp-bench/src/arith/mod.rs:13-49, 70, 97, 101, 115, 119 *)
Definition i64_mul (k : bool) (x y : Z) : option Z := norm k (x * y).
(** std [i64] arithmetic, chomp-bench/src/arith/mod.rs:13-49, 70, 97, 101, 115, 119 *)
Definition i64_neg (k : bool) (x : Z) : option Z := norm k (- x).
(** Division by zero and [i64::MIN / -1] panic whether or not there are
    overflow checks. *)
(** std [i64] arithmetic, chomp-bench/src/arith/mod.rs:13-49, 70, 97, 101, 115, 119 *)
Definition i64_div (x y : Z) : option Z :=
  if (y =? 0)%Z then None else if in_i64 (Z.quot x y) then Some (Z.quot x y) else None.

(** Run [f] on the value of an outcome, keeping the state. *)
(** the [?] of chomp-bench/src/arith/mod.rs:12-130; a panic inside a computation *)
Definition then_ {A B E S} (x : res A E * S) (f : A -> S -> res B E * S) : res B E * S :=
  match fst x with
  | Ok a => f a (snd x)
  | Err e => (Err e, snd x)
  | Panic => (Panic, snd x)
  | OutOfFuel => (OutOfFuel, snd x)
  end.
(** the [?] of chomp-bench/src/arith/mod.rs:12-130; a panic inside a computation *)
Definition or_panic {A E S} (x : option A) (st : S) : res A E * S :=
  match x with Some v => (Ok v, st) | None => (Panic, st) end.
(** [input.skip_while(|c| c == ' ')]; the runtime's fuel always suffices
    ([C06]), the other case is unreachable. *)
(** chomp-bench/src/arith/mod.rs:69, 75, 87, 96, 100, 114, 118, 128 *)
Definition spaces (st : iw) : iw :=
  match skip_while (N.eqb 32) st with Some st' => st' | None => st end.

(** chomp-bench/src/arith/mod.rs:56 *)
Definition digit_chars : list char := lit "0123456789".
(** [c.is_ascii_digit()], and the ten digit patterns of [take_number]. *)
(** chomp-bench/src/arith/mod.rs:11-50, 72 *)
Definition digit_of (c : char) : option Z :=
  if (48 <=? c)%N && (c <=? 57)%N then Some (Z.of_N (c - 48)) else None.

Section Parser.
  Variable checks : bool.

  (** chomp-bench/src/arith/mod.rs:7-63 [take_number].  The ten digit arms are
      written as one; the arm of ['0'] adds nothing. *)
  Definition push_digit (out : option Z) (d : Z) : option Z :=
    match i64_mul checks (match out with Some x => x | None => 0%Z end) 10 with
    | Some y => if (d =? 0)%Z then Some y else i64_add checks y d
    | None => None
    end.
  (** chomp-bench/src/arith/mod.rs:7-63 *)
  Fixpoint take_number (fuel : nat) (out : option Z) (st : iw) : res Z take_error * iw :=
    match fuel with
    | O => (OutOfFuel, st)
    | S n =>
      let '(p, st1) := iw_peek st in
      match p with
      | Some c =>
        match digit_of c with
        | Some d =>
          then_ (consume_str [c] st1) (fun _ st2 =>
          then_ (or_panic (push_digit out d) st2) (fun v st3 => take_number n (Some v) st3))
        | None =>
          match out with
          | Some v => (Ok v, st1)
          | None => (Err (BadBranch (iw_pos st1) c digit_chars), st1)
          end
        end
      | None =>
        match out with
        | Some v => (Ok v, st1)
        | None => (Err (EndOfStream (iw_pos st1)), st1)
        end
      end
    end.

  (** chomp-bench/src/arith/mod.rs:91-107, the loop of [take_product];
      [term] is [take_term]. *)
  Fixpoint product_loop (term : iw -> res Z take_error * iw) (fuel : nat) (out : Z) (st : iw) : res Z take_error * iw :=
    match fuel with
    | O => (OutOfFuel, st)
    | S n =>
      let '(p, st1) := iw_peek st in
      match p with
      | Some c =>
        if N.eqb c (chr "*") then
          then_ (consume_str (lit "*") st1) (fun _ st2 =>
          then_ (term (spaces st2)) (fun v st3 =>
          then_ (or_panic (i64_mul checks out v) st3) (product_loop term n)))
        else if N.eqb c (chr "/") then
          then_ (consume_str (lit "/") st1) (fun _ st2 =>
          then_ (term (spaces st2)) (fun v st3 =>
          then_ (or_panic (i64_div out v) st3) (product_loop term n)))
        else (Ok out, st1)
      | None => (Ok out, st1)
      end
    end.
  (** chomp-bench/src/arith/mod.rs:91-107 *)
  Definition take_product (term : iw -> res Z take_error * iw) (fuel : nat) (st : iw) : res Z take_error * iw :=
    then_ (term st) (product_loop term fuel).
  (** chomp-bench/src/arith/mod.rs:109-125, the loop of [take_expr];
      [product] is [take_product]. *)
  Fixpoint expr_loop (product : iw -> res Z take_error * iw) (fuel : nat) (out : Z) (st : iw) : res Z take_error * iw :=
    match fuel with
    | O => (OutOfFuel, st)
    | S n =>
      let '(p, st1) := iw_peek st in
      match p with
      | Some c =>
        if N.eqb c (chr "+") then
          then_ (consume_str (lit "+") st1) (fun _ st2 =>
          then_ (product (spaces st2)) (fun v st3 =>
          then_ (or_panic (i64_add checks out v) st3) (expr_loop product n)))
        else if N.eqb c (chr "-") then
          then_ (consume_str (lit "-") st1) (fun _ st2 =>
          then_ (product (spaces st2)) (fun v st3 =>
          then_ (or_panic (i64_sub checks out v) st3) (expr_loop product n)))
        else (Ok out, st1)
      | None => (Ok out, st1)
      end
    end.
  (** chomp-bench/src/arith/mod.rs:109-125 *)
  Definition take_expr_of (product : iw -> res Z take_error * iw) (fuel : nat) (st : iw) : res Z take_error * iw :=
    then_ (product st) (expr_loop product fuel).

  (** chomp-bench/src/arith/mod.rs:65-89 [take_term].  [fuel] bounds the depth
      of nesting and the length of every loop. *)
  Fixpoint take_term (fuel : nat) (st : iw) : res Z take_error * iw :=
    match fuel with
    | O => (OutOfFuel, st)
    | S n =>
      let '(p, st1) := iw_peek st in
      let out :=
        match p with
        | Some c =>
          if N.eqb c (chr "-") then
            then_ (consume_str (lit "-") st1) (fun _ st2 =>
            then_ (take_number n None (spaces st2)) (fun x st3 => or_panic (i64_neg checks x) st3))
          else match digit_of c with
          | Some _ => take_number n None st1
          | None =>
            if N.eqb c (chr "(") then
              then_ (consume_str (lit "(") st1) (fun _ st2 =>
              (* [o] is looked at only after the closing parenthesis *)
              let '(o, st3) := take_expr_of (take_product (take_term n) n) n (spaces st2) in
              match o with
              | Panic => (Panic, st3)
              | OutOfFuel => (OutOfFuel, st3)
              | _ => then_ (consume_str (lit ")") st3) (fun _ st4 => (o, st4))
              end)
            else (Err (BadBranch (iw_pos st1) c (lit "-(0123456789")), st1)
          end
        | None => (Err (EndOfStream (iw_pos st1)), st1)
        end in
      then_ out (fun v st2 => (Ok v, spaces st2))
    end.
  (** chomp-bench/src/arith/mod.rs:109-125 *)
  Definition take_expr (fuel : nat) (st : iw) : res Z take_error * iw :=
    take_expr_of (take_product (take_term fuel) fuel) fuel st.

  (** chomp-bench/src/arith/mod.rs:127-134 [parse_expr] *)
  Definition parse_expr (fuel : nat) (s : rstr) : res Z parse_error :=
    let '(r, st) := take_expr fuel (spaces (iw_new s)) in
    match r with
    | Ok out =>
      let '(p, st1) := iw_peek st in
      match p with
      | Some _ => Err (InputContinues (iw_pos st1))
      | None => Ok out
      end
    | Err e => Err (PTake e)
    | Panic => Panic
    | OutOfFuel => OutOfFuel
    end.
End Parser.
