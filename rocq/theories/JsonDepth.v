(** * JsonDepth: the hand-written JSON reader with its recursion counted. *)
From Coq Require Import String.
From Verif Require Export Json.
From Coq Require Import List.
Open Scope list_scope.

Section Nested.
  Context {num : Type}.
  Variables (checks : bool) (conv : rstr -> option num).

  (** chomp-bench/src/json/mod.rs:97-246 [Value::take] once more, as [take_value] of
      Json.v, except that the two uses of its fuel are kept apart: [nest] bounds
      how deeply calls of [Value::take] may be nested (each element of an array,
      line 211, and the value of each member of an object, line 228, is read by
      such a call), [loops] bounds every loop (the characters of a string or of
      a number, the iterations of [iter_strict]). *)
  Fixpoint take_nested (loops nest : nat) (st : iw) : res (value num) take_error * iw :=
    match nest with
    | O => (OutOfFuel, st)
    | S n =>
      let '(p, st1) := iw_peek (skip_ws st) in
      let out :=
        match p with
        | None => (Err (EndOfStream (iw_pos st1)), st1)
        | Some c =>
          if N.eqb c (chr "n") then then_ (consume_str (lit "null") st1) (fun _ st2 => (Ok JNull, st2))
          else if N.eqb c (chr "t") then then_ (consume_str (lit "true") st1) (fun _ st2 => (Ok (JBool true), st2))
          else if N.eqb c (chr "f") then then_ (consume_str (lit "false") st1) (fun _ st2 => (Ok (JBool false), st2))
          else if in_range 48 57 c || N.eqb c (chr "-") then
            then_ (number_run loops [c] (snd (iw_next st1))) (fun s st2 => or_panic (option_map JNumber (conv s)) st2)
          else if N.eqb c 34 then then_ (parse_str checks loops st1) (fun s st2 => (Ok (JString s), st2))
          else if N.eqb c (chr "[") then
            then_ (consume_str (lit "[") st1) (fun _ st2 =>
            then_ (iter_collect (take_nested loops n) (chr ",") (chr "]") (lit ",]") FIRST_WS loops st2) (fun l st3 =>
            then_ (consume_str (lit "]") st3) (fun _ st4 => (Ok (JArray l), st4))))
          else if N.eqb c (chr "{") then
            then_ (consume_str (lit "{") st1) (fun _ st2 =>
            then_ (iter_collect (take_member checks (take_nested loops n) loops) (chr ",") (chr "}") (lit ",}") ([34%N] ++ WS) loops st2) (fun l st3 =>
            then_ (consume_str (lit "}") st3) (fun _ st4 => (Ok (JObject l), st4))))
          else (Err (BadBranch (iw_pos st1) c FIRST), st1)
        end in
      then_ out (fun v st2 => (Ok v, skip_ws st2))
    end.
  (** [Value::parse_str], chewed/src/parse.rs:181-202 *)
  Definition parse_nested (loops nest : nat) (s : rstr) : res (value num) parse_error := parse_with (take_nested loops nest) (iw_new s).
End Nested.
