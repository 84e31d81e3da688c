(** * SpecJsonError: where a text stops being the beginning of a JSON text of
    the hand-written reader, and what that reader says about it. *)
From Coq Require Import String ZArith.
From Verif Require Export SpecJson SpecPos Runtime.
From Coq Require Import List.
Import ListNotations.
Open Scope list_scope.

Definition blanks : list char := [32; 9; 10; 13]%N.
(** The characters a value, a value or white space, and a member of an object
    can start with, in the order in which errors list them. *)
Definition value_firsts : list char := lit "tfn0123456789-" ++ [quote] ++ lit "[{".
Definition element_firsts : list char := value_firsts ++ blanks.
Definition member_firsts : list char := quote :: blanks.
Definition hex_chars : list char := lit "0123456789abcdefABCDEF".
(** The next character, if there is one, is none of these. *)
Definition next_not (P : char -> Prop) (rest : rstr) : Prop := forall c, hd_error rest = Some c -> ~ P c.
(** The text ends in a number: more characters of a number would belong to it. *)
Definition ends_in_number (w : rstr) : Prop := exists w0 x, w = w0 ++ x /\ number_run_text x.
(** A value that ends here, and could have gone on neither with white space nor
    with more of a number. *)
Definition over (u rest : rstr) : Prop := next_not (fun c => In c blanks \/ (ends_in_number u /\ number_char c)) rest.

(** What can be missing: one of some characters, the rest of a word, more of a
    string, a hexadecimal digit. *)
Inductive problem := Expect (l : list char) | Word (read word : rstr) | Unfinished | HexDigit.

Section Wrong.
  Context {num : Type}.
  Variable D : dialect num.
  (** [WrongString u rest p]: reading a string stops between [u] and [rest]
      because of [p]. *)
  Inductive WrongString : rstr -> rstr -> problem -> Prop :=
  | wrong_unfinished w s : Chars D w s -> WrongString (quote :: w) [] Unfinished
  | wrong_backslash w s : Chars D w s -> WrongString (quote :: w ++ [backslash]) [] Unfinished
  | wrong_hex w s h rest : Chars D w s -> Forall hex_digit h -> length h < 4 -> next_not hex_digit rest ->
      WrongString (quote :: w ++ backslash :: chr "u" :: h) rest HexDigit.
  (** [Wrong k u rest p]: the same for a value, inside brackets that are to be
      closed by [k], the innermost first. *)
  Inductive Wrong : list char -> rstr -> rstr -> problem -> Prop :=
  | wrong_value a rest : ws a -> next_not (fun c => In c element_firsts) rest -> Wrong [] a rest (Expect value_firsts)
  | wrong_word a x y z rest : ws a -> In (x ++ y :: z) [lit "null"; lit "true"; lit "false"] -> x <> [] -> next_not (eq y) rest ->
      Wrong [] (a ++ x) rest (Word x (x ++ y :: z))
  | wrong_string a u rest p : ws a -> WrongString u rest p -> Wrong [] (a ++ u) rest p
  | wrong_element a k u rest p : ws a -> Wrong k u rest p -> hd_error (u ++ rest) <> Some (chr "]") ->
      Wrong (k ++ lit "]") (a ++ lit "[" ++ u) rest p
  | wrong_elements a w l k u rest p : ws a -> Elements D w l -> Wrong k u rest p -> (exists c, hd_error (u ++ rest) = Some c /\ In c element_firsts) ->
      Wrong (k ++ lit "]") (a ++ lit "[" ++ w ++ lit "," ++ u) rest p
  | wrong_element_next a w l rest : ws a -> Elements D w l -> next_not (fun c => In c element_firsts) rest ->
      Wrong [] (a ++ lit "[" ++ w ++ lit ",") rest (Expect element_firsts)
  | wrong_element_end a w l rest : ws a -> Elements D w l -> next_not (fun c => In c (lit ",]" ++ blanks) \/ (ends_in_number w /\ number_char c)) rest ->
      Wrong [] (a ++ lit "[" ++ w) rest (Expect (lit ",]"))
  | wrong_member_first a k u rest p : ws a -> WrongMember k u rest p -> hd_error (u ++ rest) <> Some (chr "}") ->
      Wrong (k ++ lit "}") (a ++ lit "{" ++ u) rest p
  | wrong_members a w l k u rest p : ws a -> Members D w l -> WrongMember k u rest p -> (exists c, hd_error (u ++ rest) = Some c /\ In c member_firsts) ->
      Wrong (k ++ lit "}") (a ++ lit "{" ++ w ++ lit "," ++ u) rest p
  | wrong_member_next a w l rest : ws a -> Members D w l -> next_not (fun c => In c member_firsts) rest ->
      Wrong [] (a ++ lit "{" ++ w ++ lit ",") rest (Expect member_firsts)
  | wrong_member_end a w l rest : ws a -> Members D w l -> next_not (fun c => In c (lit ",}" ++ blanks) \/ (ends_in_number w /\ number_char c)) rest ->
      Wrong [] (a ++ lit "{" ++ w) rest (Expect (lit ",}"))
  with WrongMember : list char -> rstr -> rstr -> problem -> Prop :=
  | wrong_key a rest : ws a -> next_not (fun c => In c member_firsts) rest -> WrongMember [] a rest (Word [] [quote])
  | wrong_key_string a u rest p : ws a -> WrongString u rest p -> WrongMember [] (a ++ u) rest p
  | wrong_colon a q s b rest : ws a -> Quoted D q s -> ws b -> next_not (fun c => In c (lit ":" ++ blanks)) rest -> WrongMember [] (a ++ q ++ b) rest (Word [] (lit ":"))
  | wrong_member_value a q s b k u rest p : ws a -> Quoted D q s -> ws b -> Wrong k u rest p -> WrongMember k (a ++ q ++ b ++ lit ":" ++ u) rest p.
End Wrong.
Scheme Wrong_mi := Minimality for Wrong Sort Prop
with WrongMember_mi := Minimality for WrongMember Sort Prop.
Combined Scheme Wrong_mut from Wrong_mi, WrongMember_mi.

(** A text with which a value can start. *)
Definition viable_value {num} (D : dialect num) (u : rstr) : Prop := exists t v, Padded D (u ++ t) v.

(** ** What is said about it *)
(** The line and column after [v], when [rest] follows. *)
Definition place (v rest : rstr) : linecol := LC (1 + line_ends v (hd_error rest)) (length (last_line v (hd_error rest))).
Definition one_later (p : linecol) : linecol := LC (line p) (1 + col p).
(** A report: what has been read, what follows, and the error. *)
Definition report := (rstr * rstr * take_error)%type.
(** The error at the place itself.  In a string the wrong character has been
    read already, and so has, as it were, the end of the text. *)
Definition basic (v rest : rstr) (p : problem) : report :=
  match rest, p with
  | [], (Expect _ | Word _ _) => (v, [], EndOfStream (place v []))
  | [], (Unfinished | HexDigit) => (v, [], EndOfStream (one_later (place v [])))
  | c :: _, Expect l => (v, rest, BadBranch (place v rest) c l)
  | c :: _, Word x w => (v, rest, BadString (place v rest) (x ++ [c]) w)
  | c :: r, (Unfinished | HexDigit) => (v ++ [c], r, BadBranch (place (v ++ [c]) r) c hex_chars)
  end.
(** The list around the place looks at what follows before it passes an error
    on. *)
Definition passing (close : char) (x : report) : report :=
  let '(v, rest, e) := x in
  let firsts := if N.eqb close (chr "]") then element_firsts else member_firsts in
  match rest with
  | [] => (v, [], EndOfStream (terr_pos e))
  | c :: r =>
    if N.eqb c (chr ",") then
      match r with
      | [] => (v ++ [c], r, EndOfStream (place (v ++ [c]) r))
      | d :: _ => (v ++ [c], r, if mem_char d firsts then e else BadBranch (place (v ++ [c]) r) d firsts)
      end
    else (v, rest, if N.eqb c close then e else BadBranch (place v rest) c [chr ","; close])
  end.
Definition reported (k : list char) (v rest : rstr) (p : problem) : report := fold_left (fun x c => passing c x) k (basic v rest p).
