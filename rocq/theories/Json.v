(** * Json: chomp-bench/src/json/mod.rs, the hand-written JSON reader and the printer. *)
From Coq Require Import String ZArith.
From Verif Require Export Arith SpecJson.
From Coq Require Import List.
Open Scope list_scope.

(** std [RangeInclusive::contains], chomp-bench/src/json/mod.rs:14-21 *)
Definition in_range (lo hi c : N) : bool := (lo <=? c)%N && (c <=? hi)%N.

(** chomp-bench/src/json/mod.rs:9-24 [decode_pair]; [None] is a panic. *)
Definition is_low (c : N) : bool := in_range 56320 57343 c.      (* LOW_SURROGATE_RANGE, 0xDC00..=0xDFFF *)
(** chomp-bench/src/json/mod.rs:12 *)
Definition is_high (c : N) : bool := in_range 55296 56319 c.     (* HIGH_SURROGATE_RANGE, 0xD800..=0xDBFF *)
Definition decode_pair (one other : N) : option N :=
  let pair :=
    if is_low one then (if is_high other then Some (one, other) else None)
    else if is_low other then (if is_high one then Some (other, one) else None)
    else None in
  match pair with
  | Some (low, high) => Some ((high - 55296) * 1024 + (low - 56320) + 65536)%N
  | None => None
  end.

(** [char::try_from(u32)], then [unwrap]. *)
(** std [char::try_from(u32)] and [unwrap], chomp-bench/src/json/mod.rs:157-181 *)
Definition char_of_u32 (n : N) : option char :=
  if in_range 55296 57343 n || (1114111 <? n)%N then None else Some n.

(** Unsigned arithmetic: [checks] as in Arith.v. *)
(** std unsigned arithmetic, chomp-bench/src/json/mod.rs:23, 52, 120-139 *)
Definition unorm (checks : bool) (modulus z : Z) : option N :=
  if (0 <=? z)%Z && (z <? modulus)%Z then Some (Z.to_N z)
  else if checks then None else Some (Z.to_N (z mod modulus)).
(** std unsigned arithmetic, chomp-bench/src/json/mod.rs:23, 52, 120-139 *)
Definition u16_mul (checks : bool) (x y : N) : option N := unorm checks 65536 (Z.of_N x * Z.of_N y).
(** std unsigned arithmetic, chomp-bench/src/json/mod.rs:23, 52, 120-139 *)
Definition u32_sub (checks : bool) (x y : N) : option N := unorm checks 4294967296 (Z.of_N x - Z.of_N y).
(** [u16::try_from(u32)], then [unwrap]. *)
(** std [u16::try_from(u32)] and [unwrap], chomp-bench/src/json/mod.rs:53-54 *)
Definition u16_of_u32 (n : N) : option N := if (n <? 65536)%N then Some n else None.

(** The characters that stand for themselves, in the patterns of lines 42 and
    154: '\x20'..='\x21' | '\x23'..='\x5B' | '\x5D'..='\u{10FFFF}'. *)
(** chomp-bench/src/json/mod.rs:42 *)
Definition is_plain (c : char) : bool := in_range 32 33 c || in_range 35 91 c || in_range 93 1114111 c.

(** [{:04X}] *)
(** std [{:04X}], chomp-bench/src/json/mod.rs:55 *)
Definition hex_upper (d : N) : char := if (d <? 10)%N then (48 + d)%N else (55 + d)%N.
Definition hex4_upper (n : N) : rstr :=
  [hex_upper (n / 4096 mod 16); hex_upper (n / 256 mod 16); hex_upper (n / 16 mod 16); hex_upper (n mod 16)]%N.

Section Json.
  Variable checks : bool.
  Context {num : Type}.
  (** [str::parse::<f64>] and [Display for f64], of the standard library. *)
  Variable conv : rstr -> option num.
  Variable show : num -> rstr.

  (** ** Printing *)
  (** chomp-bench/src/json/mod.rs:41-57, the body of the loop of [write_str];
      [None] is a panic. *)
  Definition write_char (c : char) : option rstr :=
    if is_plain c then Some [c]
    else if N.eqb c 34 then Some [92; 34]%N
    else if N.eqb c 92 then Some [92; 92]%N
    else if N.eqb c 8 then Some [92; 98]%N
    else if N.eqb c 12 then Some [92; 102]%N
    else if N.eqb c 10 then Some [92; 110]%N
    else if N.eqb c 13 then Some [92; 114]%N
    else if N.eqb c 9 then Some [92; 116]%N
    else
      match u32_sub checks c 65536 with
      | Some codepoint =>
        match u16_of_u32 (codepoint / 1024 + 55296), u16_of_u32 (codepoint mod 1024 + 56320) with
        | Some high, Some low => Some ([92; 117]%N ++ hex4_upper high ++ [92; 117]%N ++ hex4_upper low)
        | _, _ => None
        end
      | None => None
      end.
  (** chomp-bench/src/json/mod.rs:41-57, the loop *)
  Fixpoint write_chars (s : rstr) : option rstr :=
    match s with
    | [] => Some []
    | c :: s' =>
      match write_char c, write_chars s' with Some t, Some t' => Some (t ++ t') | _, _ => None end
    end.
  (** chomp-bench/src/json/mod.rs:38-60 [write_str] *)
  Definition write_str (s : rstr) : option rstr := option_map (fun t => [34%N] ++ t ++ [34%N]) (write_chars s).

  (** chomp-bench/src/json/mod.rs:36-95 [Display for Value] with the default
      format.  The entries of an object are in the order the map's iterator
      gives them. *)
  Definition write_entry (k : rstr) (v : option rstr) : option rstr :=
    match write_str k, v with Some a, Some b => Some (a ++ lit " : " ++ b) | _, _ => None end.
  (** Texts, each followed by [", "]. *)
  (** chomp-bench/src/json/mod.rs:36-95, the cases of [fmt] *)
  Fixpoint write_all (l : list (option rstr)) : option rstr :=
    match l with
    | [] => Some []
    | x :: l' => match x, write_all l' with Some a, Some b => Some (a ++ lit ", " ++ b) | _, _ => None end
    end.
  (** chomp-bench/src/json/mod.rs:36-95, the cases of [fmt] *)
  Definition write_then (l : list (option rstr)) (last : option rstr) : option rstr :=
    match write_all l, last with Some a, Some b => Some (a ++ b) | _, _ => None end.
  (** chomp-bench/src/json/mod.rs:36-95, the cases of [fmt] *)
  Fixpoint display (v : value num) : option rstr :=
    match v with
    | JNull => Some (lit "null")
    | JBool true => Some (lit "true")
    | JBool false => Some (lit "false")
    | JNumber n => Some (show n)
    | JString s => write_str s
    | JArray l =>
      (* all but the last, then the last *)
      match rev (map display l) with
      | [] => Some (lit "[]")
      | last :: before => option_map (fun t => lit "[" ++ t ++ lit "]") (write_then (rev before) last)
      end
    | JObject l =>
      (* all but the first, then the first *)
      match map (fun e => write_entry (fst e) (display (snd e))) l with
      | [] => Some (lit "{}")
      | first :: rest => option_map (fun t => lit "{" ++ t ++ lit "}") (write_then rest first)
      end
    end.

  (** ** Reading *)
  (** chomp-bench/src/json/mod.rs:99-106 [WS], [FIRST], [FIRST_WS] *)
  Definition WS : list char := [32; 9; 10; 13]%N.
  (** chomp-bench/src/json/mod.rs:100-106 *)
  Definition FIRST : list char := lit "tfn0123456789-" ++ [34%N] ++ lit "[{".
  (** chomp-bench/src/json/mod.rs:100-106 *)
  Definition FIRST_WS : list char := FIRST ++ WS.
  (** chomp-bench/src/json/mod.rs:113-116 *)
  Definition HEX : list char := lit "0123456789abcdefABCDEF".

  (** chomp-bench/src/json/mod.rs:108-110 [skip_ws]; the runtime's fuel always
      suffices ([C06]). *)
  Definition skip_ws (st : iw) : iw :=
    match skip_while (fun c => mem_char c WS) st with Some st' => st' | None => st end.

  (** chomp-bench/src/json/mod.rs:120-139: the sixteen arms of the match.
      [out *= 16 + d] multiplies [out] by the sum. *)
  Definition hex_arm (c : char) : option N :=
    if in_range 48 57 c then Some (c - 48)%N
    else if in_range 97 102 c then Some (c - 87)%N
    else if in_range 65 70 c then Some (c - 55)%N
    else None.
  (** chomp-bench/src/json/mod.rs:119-139 *)
  Definition u16_step (out : option N) (c : char) : option N :=
    match out, hex_arm c with Some x, Some d => u16_mul checks x (16 + d) | _, _ => None end.
  (** chomp-bench/src/json/mod.rs:112-142 [parse_u16] *)
  Definition parse_u16 (st : iw) : res N take_error * iw :=
    then_ (take_chars_from HEX 4 st) (fun chars st1 => or_panic (fold_left u16_step chars (Some 0%N)) st1).

  (** chomp-bench/src/json/mod.rs:157-181: after a backslash.  The bad case
      evaluates [todo!()]. *)
  Definition parse_escape (st : iw) : res char take_error * iw :=
    let '(x, st1) := iw_next st in
    match x with
    | None => (Err (EndOfStream (iw_pos st1)), st1)
    | Some c =>
      if N.eqb c 34 then (Ok 34%N, st1)
      else if N.eqb c 92 then (Ok 92%N, st1)
      else if N.eqb c 47 then (Ok 47%N, st1)
      else if N.eqb c 98 then (Ok 8%N, st1)
      else if N.eqb c 102 then (Ok 12%N, st1)
      else if N.eqb c 110 then (Ok 10%N, st1)
      else if N.eqb c 114 then (Ok 13%N, st1)
      else if N.eqb c 116 then (Ok 9%N, st1)
      else if N.eqb c 117 then
        then_ (parse_u16 st1) (fun v st2 =>
        then_ (if in_range 55296 57343 v then
                 then_ (consume_str (lit "\u") st2) (fun _ st3 =>
                 then_ (parse_u16 st3) (fun other st4 => or_panic (decode_pair v other) st4))
               else (Ok v, st2))
              (fun codepoint st5 => or_panic (char_of_u32 codepoint) st5))
      else (Panic, st1)
    end.
  (** chomp-bench/src/json/mod.rs:147-185: the loop of [parse_str]; [s] is what
      has been read.  The bad case evaluates [todo!()]. *)
  Fixpoint str_loop (fuel : nat) (s : rstr) (st : iw) : res rstr take_error * iw :=
    match fuel with
    | O => (OutOfFuel, st)
    | S n =>
      let '(x, st1) := iw_next st in
      match x with
      | None => (Err (EndOfStream (iw_pos st1)), st1)
      | Some c =>
        if N.eqb c 34 then (Ok s, st1)
        else if is_plain c then str_loop n (s ++ [c]) st1
        else if N.eqb c 92 then then_ (parse_escape st1) (fun d st2 => str_loop n (s ++ [d]) st2)
        else (Panic, st1)
      end
    end.
  (** chomp-bench/src/json/mod.rs:144-186 [parse_str] *)
  Definition parse_str (fuel : nat) (st : iw) : res rstr take_error * iw :=
    then_ (consume_str [34%N] st) (fun _ st1 => str_loop fuel [] st1).

  (** chomp-bench/src/json/mod.rs:200-204 *)
  Definition is_number_char (c : char) : bool := in_range 48 57 c || mem_char c (lit "+-.eE").
  (** chomp-bench/src/json/mod.rs:200-204: the loop reading a number. *)
  Fixpoint number_run (fuel : nat) (s : rstr) (st : iw) : res rstr take_error * iw :=
    match fuel with
    | O => (OutOfFuel, st)
    | S n =>
      let '(p, st1) := iw_peek st in
      match p with
      | Some c => if is_number_char c then number_run n (s ++ [c]) (snd (iw_next st1)) else (Ok s, st1)
      | None => (Ok s, st1)
      end
    end.

  (** chomp-bench/src/json/mod.rs:223-229: the item parser of objects; [take]
      is [Value::take]. *)
  Definition take_member (take : iw -> res (value num) take_error * iw) (fuel : nat) (st : iw) : res (rstr * value num) take_error * iw :=
    then_ (parse_str fuel (skip_ws st)) (fun key st1 =>
    then_ (consume_str (lit ":") (skip_ws st1)) (fun _ st2 =>
    then_ (take st2) (fun v st3 => (Ok (key, v), st3)))).

  (** chomp-bench/src/json/mod.rs:97-246 [Value::take].  [fuel] bounds the
      depth of nesting and the length of every loop.  The failure of [s.parse()]
      evaluates [todo!()].  [collect] into a map: the entries in the order they
      are inserted. *)
  Fixpoint take_value (fuel : nat) (st : iw) : res (value num) take_error * iw :=
    match fuel with
    | O => (OutOfFuel, st)
    | S n =>
      let '(p, st1) := iw_peek (skip_ws st) in
      let out :=
        match p with
        | None => (Err (EndOfStream (iw_pos st1)), st1)
        | Some c =>
          if N.eqb c (chr "n") then then_ (consume_str (lit "null") st1) (fun _ st2 => (Ok JNull, st2))
          else if N.eqb c (chr "t") then then_ (consume_str (lit "true") st1) (fun _ st2 => (Ok (JBool true), st2))
          else if N.eqb c (chr "f") then then_ (consume_str (lit "false") st1) (fun _ st2 => (Ok (JBool false), st2))
          else if in_range 48 57 c || N.eqb c (chr "-") then
            then_ (number_run n [c] (snd (iw_next st1))) (fun s st2 => or_panic (option_map JNumber (conv s)) st2)
          else if N.eqb c 34 then then_ (parse_str n st1) (fun s st2 => (Ok (JString s), st2))
          else if N.eqb c (chr "[") then
            then_ (consume_str (lit "[") st1) (fun _ st2 =>
            then_ (iter_collect (take_value n) (chr ",") (chr "]") (lit ",]") FIRST_WS n st2) (fun l st3 =>
            then_ (consume_str (lit "]") st3) (fun _ st4 => (Ok (JArray l), st4))))
          else if N.eqb c (chr "{") then
            then_ (consume_str (lit "{") st1) (fun _ st2 =>
            then_ (iter_collect (take_member (take_value n) n) (chr ",") (chr "}") (lit ",}") ([34%N] ++ WS) n st2) (fun l st3 =>
            then_ (consume_str (lit "}") st3) (fun _ st4 => (Ok (JObject l), st4))))
          else (Err (BadBranch (iw_pos st1) c FIRST), st1)
        end in
      then_ out (fun v st2 => (Ok v, skip_ws st2))
    end.

  (** [Value::parse_str], chewed/src/parse.rs:181-202 *)
  Definition parse_json (fuel : nat) (s : rstr) : res (value num) parse_error := parse_with (take_value fuel) (iw_new s).
End Json.
