(** * SpecCombine: when languages can be told distinguishable while reading, and
    repetition. *)
From Verif Require Export SpecLang.

(** Some word begins with the character. *)
Definition begins (L : lang) (c : char) : Prop := exists w, L (c :: w).
(** Some word is also the beginning of another word, which goes on with the
    character. *)
Definition continues (L : lang) (c : char) : Prop := exists u v, L u /\ L (u ++ c :: v).
(** One character tells which of the two languages a word is from. *)
Definition distinguishable (L M : lang) : Prop := ~ (L [] /\ M []) /\ forall c, begins L c -> ~ begins M c.
(** One character tells whether the first word goes on or the second begins. *)
Definition joinable (L M : lang) : Prop := ~ L [] /\ forall c, continues L c -> ~ begins M c.

(** Any number of words one after another. *)
Inductive many (L : lang) : lang :=
| many_none : many L []
| many_more u v : L u -> many L v -> many L (u ++ v).
