(** * JsonLalr: chomp-bench/src/json/lalr.lalrpop, the LALRPOP grammar.

    LALRPOP is not modelled: it is taken to read exactly the sentences of the
    grammar, tokenized by its default lexer (longest match; what matches [\s*]
    between tokens is dropped), and to run the actions of the derivation.
    [None] as a value is a panic in an action.  What happens on other texts is
    left open. *)
From Coq Require Import String ZArith.
From Verif Require Export ArithLalr JsonGen.
From Coq Require Import List.
Open Scope list_scope.

(** ** Terminals *)
(** json/lalr.lalrpop:27, the regular expression of [Num]: an optional minus;
    a zero, or a digit from 1 to 9 and digits; optionally a point and digits;
    optionally e or E, an optional sign and at least one digit. *)
Inductive num_re : rstr -> Prop :=
| num_re_ sign int frac exp :
    opt (eq (lit "-")) sign ->
    (int = lit "0" \/ exists c ds, int = c :: ds /\ (49 <= c <= 57)%N /\ Forall digit ds) ->
    opt (fun w => exists ds, w = lit "." ++ ds /\ Forall digit ds) frac ->
    opt (fun w => exists e s ds, w = e :: s ++ ds /\ In e (lit "eE") /\ opt (fun x => x = lit "-" \/ x = lit "+") s /\ ds <> [] /\ Forall digit ds) exp ->
    num_re (sign ++ int ++ frac ++ exp).
(** json/lalr.lalrpop:29, the regular expression of [Str]: a quote, characters
    other than quote and backslash or a backslash and anything but a line
    feed, a quote. *)
Inductive str_body : rstr -> Prop :=
| body_nil : str_body []
| body_plain c b : c <> backslash -> c <> quote -> str_body b -> str_body (c :: b)
| body_escape c b : c <> 10%N -> str_body b -> str_body (backslash :: c :: b).
(** chomp-bench/src/json/lalr.lalrpop:29 *)
Definition str_re (w : rstr) : Prop := exists b, w = quote :: b ++ [quote] /\ str_body b.
(** json/lalr.lalrpop:8-10, 13-21: the quoted terminals *)
Definition terminals : list rstr := map lit ["null"; "true"; "false"; "["; "]"; ","; "{"; "}"; ":"]%string.
(** the lexer LALRPOP builds (not in the repository) for chomp-bench/src/json/lalr.lalrpop:8-29 *)
Inductive jtok := TWord (w : rstr) | TNum (w : rstr) | TStr (w : rstr).
(** the lexer LALRPOP builds (not in the repository) for chomp-bench/src/json/lalr.lalrpop:8-29 *)
Inductive lexes : rstr -> jtok -> Prop :=
| lexes_word w : In w terminals -> lexes w (TWord w)
| lexes_num w : num_re w -> lexes w (TNum w)
| lexes_str w : str_re w -> lexes w (TStr w).
(** LALRPOP's lexer, of its documentation. *)
(** the lexer LALRPOP builds (not in the repository) for chomp-bench/src/json/lalr.lalrpop:8-29 *)
Definition longest (w r : rstr) : Prop := forall w' r' t, w ++ r = w' ++ r' -> lexes w' t -> length w' <= length w.
(** the lexer LALRPOP builds (not in the repository) for chomp-bench/src/json/lalr.lalrpop:8-29 *)
Inductive jlex : rstr -> list jtok -> Prop :=
| jlex_nil : jlex [] []
| jlex_white c s ts : white c = true -> jlex s ts -> jlex (c :: s) ts
| jlex_token w r t ts : lexes w t -> longest w r -> jlex r ts -> jlex (w ++ r) (t :: ts).

(** ** Strings *)
(** [u16::from_str_radix(_, 16)], of the standard library, which allows a plus
    sign. *)
Definition from_radix (s : rstr) : option N :=
  match s with c :: s' => if N.eqb c (chr "+") then from_hex s' else from_hex s | [] => None end.
(** json/lalr.lalrpop:38-45 *)
Definition lalr_escape (e : char) : option char :=
  if N.eqb e 34 then Some 34%N else if N.eqb e 92 then Some 92%N else if N.eqb e 47 then Some 47%N else if N.eqb e 98 then Some 8%N
  else if N.eqb e 102 then Some 12%N else if N.eqb e 110 then Some 10%N else if N.eqb e 114 then Some 13%N else if N.eqb e 116 then Some 9%N else None.
(** chomp-bench/src/json/lalr.lalrpop:66 *)
Definition push (c : option char) (s : option rstr) : option rstr := match c, s with Some c, Some s => Some (c :: s) | _, _ => None end.
(** json/lalr.lalrpop:34-67, the loop.  [take(4)] on fewer than four characters
    gives a text that [from_str_radix] or the assertion about its length
    refuses; either way it is a panic. *)
Fixpoint unescape (b : rstr) : option rstr :=
  match b with
  | [] => Some []
  | c :: b' =>
    if is_plain c then push (Some c) (unescape b')
    else if N.eqb c 92 then
      match b' with
      | [] => None                                                  (* unwrap *)
      | e :: b1 =>
        if N.eqb e (chr "u") then
          match b1 with
          | h1 :: h2 :: h3 :: h4 :: b2 =>
            match from_radix [h1; h2; h3; h4] with
            | Some v =>
              if in_range 55296 57343 v then
                match b2 with
                | x :: y :: g1 :: g2 :: g3 :: g4 :: b3 =>
                  if N.eqb x 92 && N.eqb y (chr "u") then           (* assert_eq!(skipped, "\\u") *)
                    match from_radix [g1; g2; g3; g4] with
                    | Some o => match decode_pair v o with Some n => push (char_of_u32 n) (unescape b3) | None => None end
                    | None => None
                    end
                  else None
                | _ => None
                end
              else push (char_of_u32 v) (unescape b2)
            | None => None
            end
          | _ => None
          end
        else push (lalr_escape e) (unescape b1)
      end
    else None                                                       (* invalid character *)
  end.
(** json/lalr.lalrpop:29-69 [Str]: the quotes are dropped. *)
Definition str_value (w : rstr) : option rstr := unescape (removelast (tl w)).

(** ** The grammar *)
(** chomp-bench/src/json/lalr.lalrpop:8-10 *)
Definition jword (s : string) : jtok := TWord (lit s).
Section Grammar.
  Context {num : Type}.
  (** [f64::from_str] *)
  Variable conv : rstr -> option num.
  (** chomp-bench/src/json/lalr.lalrpop:14-24 *)
  Definition strict_cons {A} (x : option A) (l : option (list A)) : option (list A) := match x, l with Some x, Some l => Some (x :: l) | _, _ => None end.
  (** chomp-bench/src/json/lalr.lalrpop:14-24 *)
  Definition jentry (w : rstr) (v : option (value num)) : option (rstr * value num) := match str_value w, v with Some k, Some v => Some (k, v) | _, _ => None end.
  (** json/lalr.lalrpop:7-25 [Value], 27 [Num].  [JValues] is
      any number of values followed by commas and a value, [JMembers] the
      same with strings and colons before the values; the vector is the one
      [push] completes. *)
  Inductive JValue : list jtok -> option (value num) -> Prop :=
  | jv_null : JValue [jword "null"] (Some JNull)
  | jv_true : JValue [jword "true"] (Some (JBool true))
  | jv_false : JValue [jword "false"] (Some (JBool false))
  | jv_num w : JValue [TNum w] (option_map JNumber (conv w))
  | jv_str w : JValue [TStr w] (option_map JString (str_value w))
  | jv_array0 : JValue [jword "["; jword "]"] (Some (JArray []))
  | jv_array ts l : JValues ts l -> JValue (jword "[" :: ts ++ [jword "]"]) (option_map JArray l)
  | jv_object0 : JValue [jword "{"; jword "}"] (Some (JObject []))
  | jv_object ts l : JMembers ts l -> JValue (jword "{" :: ts ++ [jword "}"]) (option_map JObject l)
  with JValues : list jtok -> option (list (value num)) -> Prop :=
  | jvs_one ts v : JValue ts v -> JValues ts (strict_cons v (Some []))
  | jvs_more ts v us l : JValue ts v -> JValues us l -> JValues (ts ++ jword "," :: us) (strict_cons v l)
  with JMembers : list jtok -> option (list (rstr * value num)) -> Prop :=
  | jms_one w ts v : JValue ts v -> JMembers (TStr w :: jword ":" :: ts) (strict_cons (jentry w v) (Some []))
  | jms_more w ts v us l : JValue ts v -> JMembers us l -> JMembers (TStr w :: jword ":" :: ts ++ jword "," :: us) (strict_cons (jentry w v) l).
  (** [ValueParser::new().parse(s)]: the text is read, with this value. *)
  (** chomp-bench/src/json/lalr.lalrpop:7 *)
  Definition json_lalr_reads (s : rstr) (v : option (value num)) : Prop := exists ts, jlex s ts /\ JValue ts v.
End Grammar.
Scheme JValue_ind3 := Minimality for JValue Sort Prop
with JValues_ind3 := Minimality for JValues Sort Prop
with JMembers_ind3 := Minimality for JMembers Sort Prop.
Combined Scheme json_lalr_min from JValue_ind3, JValues_ind3, JMembers_ind3.
