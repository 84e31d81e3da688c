(** * JsonGen: chomp-bench/src/json/nibble.rs, the generated JSON parser. *)
From Coq Require Import String ZArith.
From Verif Require Export Source Main GenSem Json.
From Coq Require Import List.
Open Scope list_scope.

(** chomp-bench/src/json/nibble.rs:9-69, verbatim. *)
Definition json_source : string := "
    let opt  some = _ : None | some;
    let plus iter = !(/rec/ iter . opt rec);
    let star iter = !(/rec/ opt (iter . rec));

    let ws_char = "" "" | ""\t"" | ""\n"" | ""\r"";
    let ws      = star ws_char;

    let sep iter = !(/rec/ iter . opt ("","" . ws . rec));

    let digit_1_9 = ""1"" | ""2"" | ""3"" | ""4"" | ""5"" | ""6"" | ""7"" | ""8"" | ""9"";
    let digit     = ""0"" | digit_1_9;

    let unsigned_number =
          ((""0"" | digit_1_9 . star digit) : Int)
        . (opt (""."" . plus digit) : Frac)
        . (opt ((""e"" | ""E"") . opt (""+"" | ""-"") . plus digit) : Exp);
    let number =
          unsigned_number       : Positive
        | ""-"" . unsigned_number : Negative;

    let hex =
        ""0"" | ""1"" | ""2"" | ""3"" | ""4"" | ""5"" | ""6"" | ""7"" | ""8"" | ""9"" |
        ""a"" | ""b"" | ""c"" | ""d"" | ""e"" | ""f"" |
        ""A"" | ""B"" | ""C"" | ""D"" | ""E"" | ""F"" ;
    let char =
        ("" "" | ""!""       | ""#"" | ""$"" | ""%"" | ""&"" | ""'"" |
         ""("" | "")"" | ""*"" | ""+"" | "","" | ""-"" | ""."" | ""/"" |
         ""0"" | ""1"" | ""2"" | ""3"" | ""4"" | ""5"" | ""6"" | ""7"" |
         ""8"" | ""9"" | "":"" | "";"" | ""<"" | ""="" | "">"" | ""?"" |
         ""@"" | ""A"" | ""B"" | ""C"" | ""D"" | ""E"" | ""F"" | ""G"" |
         ""H"" | ""I"" | ""J"" | ""K"" | ""L"" | ""M"" | ""N"" | ""O"" |
         ""P"" | ""Q"" | ""R"" | ""S"" | ""T"" | ""U"" | ""V"" | ""W"" |
         ""X"" | ""Y"" | ""Z"" | ""[""       | ""]"" | ""^"" | ""_"" |
         ""`"" | ""a"" | ""b"" | ""c"" | ""d"" | ""e"" | ""f"" | ""g"" |
         ""h"" | ""i"" | ""j"" | ""k"" | ""l"" | ""m"" | ""n"" | ""o"" |
         ""p"" | ""q"" | ""r"" | ""s"" | ""t"" | ""u"" | ""v"" | ""w"" |
         ""x"" | ""y"" | ""z"" | ""{"" | ""|"" | ""}"" | ""~""
        ) : Literal |
        ""\\"" . (
            (""\"""" | ""\\"" | ""/"" | ""b"" | ""f"" | ""n"" | ""r"" | ""t"") : Ascii |
            ""u"" . hex . hex . hex . hex : Unicode
        ) : Escape;

    let string = ""\"""" . star char . ""\"""";

    let member value = (string : Key) . ws . "":"" . ws . value . ws;
    let object value = ""{"" . ws . opt (sep (member value)) . ""}"";

    let array  value = ""["" . ws . opt (sep (value . ws)) . ""]"";

    let value = !(/value/
          ""true""       : True
        | ""false""      : False
        | ""null""       : Null
        | number       : Number
        | string       : String
        | object value : Object
        | array value  : Array
    );

    match !(/rec/ ws_char . rec | value . ws);
"%string.

(** What the macro generates: the table of types and the type of [Ast]. *)
Notation json_chomp := (chomp (fun _ _ => None) heck 500 (tokens_of json_source)).
(** the code generated for chomp-bench/src/json/nibble.rs:9-69 (chomp-macro/src/lib.rs) *)
Definition json_tab := Eval vm_compute in match json_chomp with Ok (tab, _, _) => tab | _ => [] end.
(** the code generated for chomp-bench/src/json/nibble.rs:9-69 (chomp-macro/src/lib.rs) *)
Definition json_root := Eval vm_compute in match json_chomp with Ok (_, root, _) => root | _ => 0 end.

(** [u16::from_str_radix(_, 16)], of the standard library, for a text without
    a sign; [None] is an error. *)
(** std [u16::from_str_radix], chomp-bench/src/json/nibble.rs:123-126 *)
Definition hex_digit_of (c : char) : option N :=
  if in_range 48 57 c then Some (c - 48)%N else if in_range 97 102 c then Some (c - 87)%N else if in_range 65 70 c then Some (c - 55)%N else None.
(** std [u16::from_str_radix], chomp-bench/src/json/nibble.rs:123-126 *)
Fixpoint hex_digits (acc : N) (s : rstr) : option N :=
  match s with
  | [] => Some acc
  | c :: s' =>
    match hex_digit_of c with
    | Some d => if (16 * acc + d <? 65536)%N then hex_digits (16 * acc + d)%N s' else None
    | None => None
    end
  end.
(** std [u16::from_str_radix], chomp-bench/src/json/nibble.rs:123-126 *)
Definition from_hex (s : rstr) : option N := match s with [] => None | _ => hex_digits 0 s end.

(** [From<..> for Value] and the iterators.  A value of a generated type is a
    [tree] (GenSem.v): structs are [NCat], enums [NAlt] with the number of the
    variant, boxes [NBox].  [None] is a panic (or a tree that is not of the
    type). *)
(** chomp-bench/src/json/nibble.rs:123-126 [decode]; 145 is [Hex1], 142
    [Literal1] (PropJsonGen, C69_ex_names). *)
Definition decode (h1 h2 h3 h4 : tree) : option N :=
  match to_char json_tab 145 h1, to_char json_tab 145 h2, to_char json_tab 145 h3, to_char json_tab 145 h4 with
  | Some c1, Some c2, Some c3, Some c4 => from_hex [c1; c2; c3; c4]
  | _, _, _, _ => None
  end.
(** chomp-bench/src/json/nibble.rs:134-141, the variants of [Ascii1] in order. *)
Definition ascii_escapes : list char := [34; 92; 47; 8; 12; 10; 13; 9]%N.
(** chomp-bench/src/json/nibble.rs:128 [SURROGATE_PAIR_RANGE] *)
Definition is_surrogate (n : N) : bool := in_range 55296 57343 n.
(** chomp-bench/src/json/nibble.rs:109-166 [Iterator for Opt5], run to the end
    and collected. *)
Fixpoint collect_chars (t : tree) : option rstr :=
  match t with
  | NAlt 0 _ => Some []                                                    (* None1 *)
  | NAlt 1 (NCat [NAlt 0 l; NBox rest]) =>                                 (* Some1, Literal1 *)
    match to_char json_tab 142 l, collect_chars rest with Some c, Some s => Some (c :: s) | _, _ => None end
  | NAlt 1 (NCat [NAlt 1 (NCat [_; NAlt 0 (NAlt k _)]); NBox rest]) =>     (* Escape1, Ascii1 *)
    match nth_error ascii_escapes k, collect_chars rest with Some c, Some s => Some (c :: s) | _, _ => None end
  | NAlt 1 (NCat [NAlt 1 (NCat [_; NAlt 1 (NCat [_; h1; h2; h3; h4])]); NBox rest]) =>  (* Escape1, Unicode1 *)
    match decode h1 h2 h3 h4 with
    | Some n =>
      if is_surrogate n then
        match rest with
        | NAlt 1 (NCat [NAlt 1 (NCat [_; NAlt 1 (NCat [_; g1; g2; g3; g4])]); NBox rest']) =>
          match decode g1 g2 g3 g4 with
          | Some m =>
            if is_surrogate m then
              match decode_pair n m with
              | Some u => match char_of_u32 u, collect_chars rest' with Some c, Some s => Some (c :: s) | _, _ => None end
              | None => None
              end
            else None                                                      (* assert *)
          | None => None
          end
        | _ => None                                                        (* panic *)
        end
      else match char_of_u32 n, collect_chars rest with Some c, Some s => Some (c :: s) | _, _ => None end
    | None => None
    end
  | _ => None
  end.
(** chomp-bench/src/json/nibble.rs:103-107 [From<String1>] *)
Definition string_of (t : tree) : option rstr :=
  match t with NCat [_; star; _] => collect_chars star | _ => None end.

Section Value.
  Context {num : Type}.
  (** [From<Number1> for f64], [From<String1> for String] *)
  Variable number : tree -> option num.
  Variable str : tree -> option rstr.

  (** chomp-bench/src/json/nibble.rs:83-95 [From<Value1>]; 210-214
      [From<Array1>] with the iterators of lines 216-242; 168-176
      [From<Object1>] with 178-208. *)
  Fixpoint of_value (t : tree) {struct t} : option (value num) :=
    match t with
    | NAlt 0 _ => Some (JBool true)
    | NAlt 1 _ => Some (JBool false)
    | NAlt 2 _ => Some JNull
    | NAlt 3 n => option_map JNumber (number n)
    | NAlt 4 s => option_map JString (str s)
    | NAlt 5 (NCat [_; _; NAlt 0 _; _]) => Some (JObject [])
    | NAlt 5 (NCat [_; _; NAlt 1 sep; _]) => option_map JObject (of_members sep)
    | NAlt 6 (NCat [_; _; NAlt 0 _; _]) => Some (JArray [])
    | NAlt 6 (NCat [_; _; NAlt 1 sep; _]) => option_map JArray (of_items sep)
    | _ => None
    end
  with of_items (t : tree) {struct t} : option (list (value num)) :=
    match t with
    | NCat [NCat [NBox v; _]; NAlt 0 _] => match of_value v with Some x => Some [x] | None => None end
    | NCat [NCat [NBox v; _]; NAlt 1 (NCat [_; _; NBox rest])] =>
      match of_value v, of_items rest with Some x, Some l => Some (x :: l) | _, _ => None end
    | _ => None
    end
  with of_members (t : tree) {struct t} : option (list (rstr * value num)) :=
    match t with
    | NCat [NCat [key; _; _; _; NBox v; _]; NAlt 0 _] => match str key, of_value v with Some k, Some x => Some [(k, x)] | _, _ => None end
    | NCat [NCat [key; _; _; _; NBox v; _]; NAlt 1 (NCat [_; _; NBox rest])] =>
      match str key, of_value v, of_members rest with Some k, Some x, Some l => Some ((k, x) :: l) | _, _, _ => None end
    | _ => None
    end.
  (** chomp-bench/src/json/nibble.rs:72-81 [From<Ast>] *)
  Fixpoint of_ast_with (t : tree) : option (value num) :=
    match t with
    | NAlt 0 (NCat [_; NBox t']) => of_ast_with t'
    | NAlt 1 (NCat [v; _]) => of_value v
    | _ => None
    end.
End Value.

(** chomp-bench/src/json/nibble.rs:97-101 [From<Number1>]; [Value::from] on the result of the parser.  [conv] is [str::parse::<f64>],
    [unwrap]ped; [to_string] is [yield], which is what it returns (C23). *)
Definition number_of {num} (conv : rstr -> option num) (t : tree) : option num := conv (yield t).
(** chomp-bench/src/json/nibble.rs:72-81 *)
Definition of_ast {num} (conv : rstr -> option num) : tree -> option (value num) := of_ast_with (number_of conv) string_of.
