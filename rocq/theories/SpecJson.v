(** * SpecJson: JSON values and the texts that denote them. *)
From Coq Require Import String.
From Verif Require Export Base.
From Coq Require Import List.
Open Scope list_scope.

(** chomp-bench/src/json/mod.rs:26-34 [Value].  Numbers are left abstract.  An
    object is the list of its entries; which value a key has is [lookup]. *)
Inductive value (num : Type) : Type :=
| JNull
| JBool (b : bool)
| JNumber (n : num)
| JString (s : rstr)
| JArray (l : list (value num))
| JObject (l : list (rstr * value num)).
Arguments JNull {num}.
Arguments JBool {num} _.
Arguments JNumber {num} _.
Arguments JString {num} _.
Arguments JArray {num} _.
Arguments JObject {num} _.

(** The value of a key: that of the entry inserted last. *)
Fixpoint lookup {A} (k : rstr) (l : list (rstr * A)) : option A :=
  match l with
  | [] => None
  | (k', v) :: l' => match lookup k l' with Some x => Some x | None => if rstr_eqb k k' then Some v else None end
  end.

(** The same value: objects are compared as maps. *)
Inductive both {A} (R : A -> A -> Prop) : option A -> option A -> Prop :=
| both_none : both R None None
| both_some x y : R x y -> both R (Some x) (Some y).
Inductive same {num} : value num -> value num -> Prop :=
| same_null : same JNull JNull
| same_bool b : same (JBool b) (JBool b)
| same_number n : same (JNumber n) (JNumber n)
| same_string s : same (JString s) (JString s)
| same_array l l' : Forall2 same l l' -> same (JArray l) (JArray l')
| same_object l l' : (forall k, both same (lookup k l) (lookup k l')) -> same (JObject l) (JObject l').

(** What differs from one JSON reader to the next:
    - the characters that may stand for themselves in a string,
    - what may follow a backslash and [u], and the character that makes,
    - how numbers are written,
    - what may stand between the brackets of an empty array or object. *)
Record dialect (num : Type) := Dialect {
  plain : char -> Prop;
  unicode : rstr -> char -> Prop;
  number_is : rstr -> num -> Prop;
  inside_empty : rstr -> Prop }.
Arguments plain {num} _ _.
Arguments unicode {num} _ _ _.
Arguments number_is {num} _ _ _.
Arguments inside_empty {num} _ _.

Definition ws (w : rstr) : Prop := Forall (fun c => In c [32; 9; 10; 13]%N) w.
(** The two-character escapes. *)
Definition escape (e c : char) : Prop :=
  In (e, c) [(34, 34); (92, 92); (47, 47); (98, 8); (102, 12); (110, 10); (114, 13); (116, 9)]%N.
Definition backslash : char := 92%N.
Definition quote : char := 34%N.

Section Texts.
  Context {num : Type}.
  Variable D : dialect num.
  (** [Chars w s]: between quotes, [w] is the string [s]. *)
  Inductive Chars : rstr -> rstr -> Prop :=
  | chars_nil : Chars [] []
  | chars_plain c w s : plain D c -> Chars w s -> Chars (c :: w) (c :: s)
  | chars_escape e c w s : escape e c -> Chars w s -> Chars (backslash :: e :: w) (c :: s)
  | chars_unicode u c w s : unicode D u c -> Chars w s -> Chars (backslash :: chr "u" :: u ++ w) (c :: s).
  Inductive Quoted : rstr -> rstr -> Prop :=
  | quoted w s : Chars w s -> Quoted (quote :: w ++ [quote]) s.

  (** [Val w v]: the text [w] is the value [v]; [Padded]: with white space
      around; [Elements], [Members]: separated by commas. *)
  Inductive Val : rstr -> value num -> Prop :=
  | val_null : Val (lit "null") JNull
  | val_true : Val (lit "true") (JBool true)
  | val_false : Val (lit "false") (JBool false)
  | val_number w n : number_is D w n -> Val w (JNumber n)
  | val_string w s : Quoted w s -> Val w (JString s)
  | val_array0 w : inside_empty D w -> Val (lit "[" ++ w ++ lit "]") (JArray [])
  | val_array w l : Elements w l -> Val (lit "[" ++ w ++ lit "]") (JArray l)
  | val_object0 w : inside_empty D w -> Val (lit "{" ++ w ++ lit "}") (JObject [])
  | val_object w l : Members w l -> Val (lit "{" ++ w ++ lit "}") (JObject l)
  with Padded : rstr -> value num -> Prop :=
  | padded a w b v : ws a -> Val w v -> ws b -> Padded (a ++ w ++ b) v
  with Elements : rstr -> list (value num) -> Prop :=
  | elements_one w v : Padded w v -> Elements w [v]
  | elements_more w v w' l : Padded w v -> Elements w' l -> Elements (w ++ lit "," ++ w') (v :: l)
  with Member : rstr -> rstr * value num -> Prop :=
  | member a q k b w v : ws a -> Quoted q k -> ws b -> Padded w v -> Member (a ++ q ++ b ++ lit ":" ++ w) (k, v)
  with Members : rstr -> list (rstr * value num) -> Prop :=
  | members_one w m : Member w m -> Members w [m]
  | members_more w m w' l : Member w m -> Members w' l -> Members (w ++ lit "," ++ w') (m :: l).
End Texts.

Definition digit (c : char) : Prop := (48 <= c <= 57)%N.
Definition hex_digit (c : char) : Prop := (48 <= c <= 57 \/ 97 <= c <= 102 \/ 65 <= c <= 70)%N.
Definition hex4 (u : rstr) : Prop := length u = 4 /\ Forall hex_digit u.
Definition hex_value (c : char) : N := (if c <=? 57 then c - 48 else if c <=? 70 then c - 55 else c - 87)%N.
Definition hex_number (u : rstr) : N := fold_left (fun n c => 16 * n + hex_value c)%N u 0%N.

(** Numbers as RFC 8259 writes them. *)
Definition opt (P : rstr -> Prop) (w : rstr) : Prop := w = [] \/ P w.
Inductive JsonNumber : rstr -> Prop :=
| json_number sign int frac exp :
    opt (eq (lit "-")) sign ->
    (int = lit "0" \/ exists c ds, int = c :: ds /\ (49 <= c <= 57)%N /\ Forall digit ds) ->
    opt (fun w => exists ds, w = lit "." ++ ds /\ ds <> [] /\ Forall digit ds) frac ->
    opt (fun w => exists e s ds, w = e :: s ++ ds /\ In e (lit "eE") /\ opt (fun x => x = lit "+" \/ x = lit "-") s /\ ds <> [] /\ Forall digit ds) exp ->
    JsonNumber (sign ++ int ++ frac ++ exp).

(** A code point above the first plane is written as two escapes; the numbers
    of the pair. *)
Definition high_surrogate (n : N) : Prop := (55296 <= n <= 56319)%N.
Definition low_surrogate (n : N) : Prop := (56320 <= n <= 57343)%N.
Definition pair_value (high low : N) : N := ((high - 55296) * 1024 + (low - 56320) + 65536)%N.
(** Every Rust [char] is at most this. *)
Definition max_char : N := 1114111%N.

(** ** Texts a reader cannot survive *)
Section Doom.
  Context {num : Type}.
  Variable D : dialect num.
  (** A text starting with a number the reader cannot cope with. *)
  Variable bad_number : rstr -> Prop.
  (** A string that is fine up to a control character, or up to a backslash
      followed by something that makes no escape. *)
  Inductive DoomedString : rstr -> Prop :=
  | doomed_control w s c r : Chars D w s -> (c < 32)%N -> DoomedString (quote :: w ++ c :: r)
  | doomed_escape w s e r : Chars D w s -> (forall c, ~ escape e c) -> e <> chr "u" -> DoomedString (quote :: w ++ backslash :: e :: r).
  (** A text whose value starts well and then runs into one of these. *)
  Inductive Doomed : rstr -> Prop :=
  | doomed_number a r : ws a -> bad_number r -> Doomed (a ++ r)
  | doomed_string a r : ws a -> DoomedString r -> Doomed (a ++ r)
  | doomed_element a r : ws a -> Doomed r -> Doomed (a ++ lit "[" ++ r)
  | doomed_elements a w l r : ws a -> Elements D w l -> Doomed r -> Doomed (a ++ lit "[" ++ w ++ lit "," ++ r)
  | doomed_member a r : ws a -> DoomedMember r -> Doomed (a ++ lit "{" ++ r)
  | doomed_members a w l r : ws a -> Members D w l -> DoomedMember r -> Doomed (a ++ lit "{" ++ w ++ lit "," ++ r)
  with DoomedMember : rstr -> Prop :=
  | doomed_key a r : ws a -> DoomedString r -> DoomedMember (a ++ r)
  | doomed_value a q k b r : ws a -> Quoted D q k -> ws b -> Doomed r -> DoomedMember (a ++ q ++ b ++ lit ":" ++ r).
End Doom.

(** The dialect of the hand-written reader.  [conv] is [str::parse::<f64>]. *)
Definition number_char (c : char) : Prop := digit c \/ In c (lit "+-.eE").
Inductive number_run_text : rstr -> Prop :=
| number_run_text_ c w : digit c \/ c = chr "-" -> Forall number_char w -> number_run_text (c :: w).
Definition hand {num} (conv : rstr -> option num) : dialect num :=
  {| plain c := (32 <= c <= max_char)%N /\ c <> quote /\ c <> backslash;
     unicode u c := hex4 u /\ c = 0%N;
     number_is w n := number_run_text w /\ conv w = Some n;
     inside_empty w := w = [] |}.
Inductive unreadable {num} (conv : rstr -> option num) : rstr -> Prop :=
| unreadable_ w r : number_run_text w -> conv w = None -> (forall c, hd_error r = Some c -> ~ number_char c) -> unreadable conv (w ++ r).

(** ** Conditions on every part of a value *)
Section Everywhere.
  Context {num : Type}.
  Variables (on_string : rstr -> Prop) (on_number : num -> Prop) (on_keys : list rstr -> Prop).
  Inductive everywhere : value num -> Prop :=
  | every_null : everywhere JNull
  | every_bool b : everywhere (JBool b)
  | every_number n : on_number n -> everywhere (JNumber n)
  | every_string s : on_string s -> everywhere (JString s)
  | every_array l : Forall everywhere l -> everywhere (JArray l)
  | every_object l : on_keys (map fst l) -> Forall (fun e => on_string (fst e) /\ everywhere (snd e)) l -> everywhere (JObject l).
End Everywhere.
(** Control characters JSON has no short escape for. *)
Definition unprintable (c : char) : Prop := (c < 32)%N /\ ~ In c [8; 9; 10; 12; 13]%N.

(** ** The dialect of the generated reader *)
(** The printable ASCII characters. *)
Definition printable_ascii (c : char) : Prop := (32 <= c <= 126)%N /\ c <> quote /\ c <> backslash.
Definition surrogate (n : N) : Prop := high_surrogate n \/ low_surrogate n.
(** One escape for a character, or two that make a pair, in either order. *)
Inductive code_units : rstr -> char -> Prop :=
| one_unit u : hex4 u -> ~ surrogate (hex_number u) -> code_units u (hex_number u)
| high_low u u' : hex4 u -> hex4 u' -> high_surrogate (hex_number u) -> low_surrogate (hex_number u') ->
    code_units (u ++ backslash :: chr "u" :: u') (pair_value (hex_number u) (hex_number u'))
| low_high u u' : hex4 u -> hex4 u' -> low_surrogate (hex_number u) -> high_surrogate (hex_number u') ->
    code_units (u ++ backslash :: chr "u" :: u') (pair_value (hex_number u') (hex_number u)).
Definition generated {num} (conv : rstr -> option num) : dialect num :=
  {| plain := printable_ascii; unicode := code_units; number_is w n := JsonNumber w /\ conv w = Some n; inside_empty := ws |}.
(** JSON as RFC 8259 has it, in printable ASCII, with numbers left as they are
    written and every [\u] escape taken alone (and its value ignored). *)
Definition rfc8259 : dialect rstr :=
  {| plain := printable_ascii; unicode u c := hex4 u /\ c = 0%N; number_is w n := JsonNumber w /\ n = w; inside_empty := ws |}.
(** What both readers understand, and understand alike: no [\u] escapes, and
    nothing between the brackets of empty arrays and objects. *)
Definition common {num} (conv : rstr -> option num) : dialect num :=
  {| plain := printable_ascii; unicode _ _ := False; number_is w n := JsonNumber w /\ conv w = Some n; inside_empty w := w = [] |}.
