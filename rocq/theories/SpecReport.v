(** * SpecReport: reading an error message of a generated parser. *)
From Coq Require Import String.
From Verif Require Export Lower Runtime.
From Coq Require Import List NArith.
Open Scope list_scope.

(** A way of writing things such that where one ends can be seen. *)
Definition self_delimiting {A} (f : A -> rstr) : Prop := forall a b x y, f a ++ x = f b ++ y -> a = b /\ x = y.

(** ** What an error message says *)
(** The line and column, and the remark. *)
Definition located_text (l c : nat) (remark : rstr) : rstr := dec l ++ lit ":" ++ dec c ++ lit ": " ++ remark.
(** The writings of some things with commas between them. *)
Fixpoint commas {A} (f : A -> rstr) (l : list A) : rstr :=
  match l with
  | [] => []
  | [x] => f x
  | x :: l' => f x ++ lit ", " ++ commas f l'
  end.

(** ** The standard library's [{:?}] *)
(** As documented for [char::escape_debug]; [plain] stands for its tables of
    characters that are printable and do not combine with the one before. *)
Definition hex_digit (n : N) : char := if (n <? 10)%N then (48 + n)%N else (87 + n)%N.
Fixpoint hex_go (fuel : nat) (n : N) (acc : rstr) : rstr :=
  match fuel with
  | O => acc
  | S k => let acc := hex_digit (n mod 16) :: acc in if (n / 16 =? 0)%N then acc else hex_go k (n / 16) acc
  end.
Definition hex (n : N) : rstr := hex_go (S (N.to_nat (N.size n))) n [].
Definition escaped (plain : char -> bool) (quote : char) (c : char) : rstr :=
  if (c =? 0)%N then lit "\0" else if (c =? 9)%N then lit "\t" else if (c =? 10)%N then lit "\n" else if (c =? 13)%N then lit "\r"
  else if (c =? chr "\")%N then lit "\\" else if (c =? quote)%N then chr "\" :: [quote]
  else if plain c then [c] else lit "\u{" ++ hex c ++ lit "}".
Definition apostrophe : char := 39%N.
Definition quotation : char := 34%N.
Definition rust_char (plain : char -> bool) (c : char) : rstr := apostrophe :: escaped plain apostrophe c ++ [apostrophe].
Definition rust_str (plain : char -> bool) (s : rstr) : rstr := quotation :: flat_map (escaped plain quotation) s ++ [quotation].
