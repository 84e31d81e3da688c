(** * SpecJsonLalr: the JSON dialect of the LALRPOP parser of the benchmark. *)
From Coq Require Import String ZArith.
From Verif Require Export SpecJson.
From Coq Require Import List.
Open Scope list_scope.

(** Numbers as RFC 8259 writes them, except that no digit need follow the
    point. *)
Inductive LooseNumber : rstr -> Prop :=
| strict_number w : JsonNumber w -> LooseNumber w
| bare_point a b : (forall c, In c a -> digit c \/ c = chr "-") -> (forall c, hd_error b = Some c -> ~ digit c) ->
    JsonNumber (a ++ lit ".0" ++ b) -> LooseNumber (a ++ lit "." ++ b).
(** Four hexadecimal digits, or a plus sign and three. *)
Inductive unit_is : rstr -> N -> Prop :=
| unit_digits u : hex4 u -> unit_is u (hex_number u)
| unit_plus h : length h = 3 -> Forall hex_digit h -> unit_is (chr "+" :: h) (hex_number h).
Inductive loose_units : rstr -> char -> Prop :=
| loose_one u n : unit_is u n -> ~ surrogate n -> loose_units u n
| loose_high_low u u' n n' : unit_is u n -> unit_is u' n' -> high_surrogate n -> low_surrogate n' -> loose_units (u ++ backslash :: chr "u" :: u') (pair_value n n')
| loose_low_high u u' n n' : unit_is u n -> unit_is u' n' -> low_surrogate n -> high_surrogate n' -> loose_units (u ++ backslash :: chr "u" :: u') (pair_value n' n).
Definition lalrpop {num} (conv : rstr -> option num) : dialect num :=
  {| plain c := (32 <= c <= max_char)%N /\ c <> quote /\ c <> backslash;
     unicode := loose_units;
     number_is w n := LooseNumber w /\ conv w = Some n;
     inside_empty := ws |}.
(** What the hand-written reader understands like the LALRPOP parser. *)
Definition loose_common {num} (conv : rstr -> option num) : dialect num :=
  {| plain c := (32 <= c <= max_char)%N /\ c <> quote /\ c <> backslash;
     unicode _ _ := False;
     number_is w n := LooseNumber w /\ conv w = Some n;
     inside_empty w := w = [] |}.
(** White space that JSON does not have, read as a space. *)
Definition respaced (white : char -> bool) (s s' : rstr) : Prop :=
  Forall2 (fun c c' => c' = c \/ (white c = true /\ ~ ws [c] /\ c' = chr " ")) s s'.
