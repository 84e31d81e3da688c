(** * ArithDepth: the hand-written arithmetic parser with its recursion counted. *)
From Coq Require Import String ZArith.
From Verif Require Export Arith.
From Coq Require Import List.
Open Scope list_scope.

Section Nested.
  Variable checks : bool.

  (** chomp-bench/src/arith/mod.rs:65-89 [take_term], as in Arith.v, with the
      recursive call (line 76, through [take_expr] and [take_product]) as the
      parameter [sub]; [loops] bounds every loop. *)
  Definition term_with (loops : nat) (sub : iw -> res Z take_error * iw) (st : iw) : res Z take_error * iw :=
    let '(p, st1) := iw_peek st in
    let out :=
      match p with
      | Some c =>
        if N.eqb c (chr "-") then
          then_ (consume_str (lit "-") st1) (fun _ st2 =>
          then_ (take_number checks loops None (spaces st2)) (fun x st3 => or_panic (i64_neg checks x) st3))
        else match digit_of c with
        | Some _ => take_number checks loops None st1
        | None =>
          if N.eqb c (chr "(") then
            then_ (consume_str (lit "(") st1) (fun _ st2 =>
            let '(o, st3) := take_expr_of checks (take_product checks sub loops) loops (spaces st2) in
            match o with
            | Panic => (Panic, st3)
            | OutOfFuel => (OutOfFuel, st3)
            | _ => then_ (consume_str (lit ")") st3) (fun _ st4 => (o, st4))
            end)
          else (Err (BadBranch (iw_pos st1) c (lit "-(0123456789")), st1)
        end
      | None => (Err (EndOfStream (iw_pos st1)), st1)
      end in
    then_ out (fun v st2 => (Ok v, spaces st2)).
  (** [take_term] with room for [nest] calls of it inside one another. *)
  (** chomp-bench/src/arith/mod.rs:65-89 *)
  Fixpoint take_term_nested (loops nest : nat) (st : iw) : res Z take_error * iw :=
    match nest with
    | O => (OutOfFuel, st)
    | S n => term_with loops (take_term_nested loops n) st
    end.
  (** chomp-bench/src/arith/mod.rs:127-134 [parse_expr] *)
  Definition parse_expr_nested (loops nest : nat) (s : rstr) : res Z parse_error :=
    let '(r, st) := take_expr_of checks (take_product checks (take_term_nested loops nest) loops) loops (spaces (iw_new s)) in
    match r with
    | Ok out =>
      let '(p, st1) := iw_peek st in
      match p with
      | Some _ => Err (InputContinues (iw_pos st1))
      | None => Ok out
      end
    | Err e => Err (PTake e)
    | Panic => Panic
    | OutOfFuel => OutOfFuel
    end.
End Nested.
