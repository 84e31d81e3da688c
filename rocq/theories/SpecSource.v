(** * SpecSource: how a sequence of tokens is written down in Rust's way.
    (The part of Rust's lexical grammar that Source reads: no comments, numbers,
    brackets, byte or raw strings, suffixes.) *)
From Coq Require Import String.
From Verif Require Export SpecAuto.
From Coq Require Import List.
Open Scope list_scope.

Definition space (c : char) : Prop :=
  In c [9; 10; 11; 12; 13; 32; 133; 160; 5760; 8206; 8207; 8232; 8233; 8239; 8287; 12288]%N \/ (8192 <= c <= 8202)%N.
Definition first_char (c : char) : Prop := letter c \/ c = 95%N.
(** A character of a literal: itself, unless it is a quote, a backslash or a
    carriage return, or an escape of a Unicode scalar value. *)
Inductive quoted_char : char -> rstr -> Prop :=
| lit_plain c : c <> 34%N -> c <> 92%N -> c <> 13%N -> quoted_char c [c]
| lit_escape c w : char_text c (92%N :: w) -> scalar c -> quoted_char c (92%N :: w).
Inductive quoted_chars : rstr -> rstr -> Prop :=
| lit_none : quoted_chars [] []
| lit_more c u v w : quoted_char c u -> quoted_chars v w -> quoted_chars (c :: v) (u ++ w).
(** [no_next P s]: the text [s] does not start with a character of [P]. *)
Definition no_next (P : char -> Prop) (s : rstr) : Prop := forall c s', s = c :: s' -> ~ P c.

(** [source ts s after]: before the text [after], the text [s] is written for
    the tokens [ts]. *)
Inductive source : list token -> rstr -> rstr -> Prop :=
| src_end after : source [] [] after
| src_space c ts s after : space c -> source ts s after -> source ts (c :: s) after
| src_ident c a sp ts s after : first_char c -> Forall word_char a ->
    no_next (fun d => word_char d \/ In d (lit """'#")) (s ++ after) ->
    source ts s after -> source (TkIdent (Ident false (c :: a) sp) :: ts) (c :: a ++ s) after
| src_str v w sp ts s after : quoted_chars v w -> no_next first_char (s ++ after) ->
    source ts s after -> source (TkStr v sp :: ts) (lit """" ++ w ++ lit """" ++ s) after
| src_punct c sp ts s after : In c (lit "~!@#$%^&*-=+|;:,<.>/?") -> (c = chr "/" -> no_next (fun d => In d (lit "/*")) (s ++ after)) ->
    source ts s after -> source (TkPunct c sp :: ts) (c :: s) after
| src_group ts' w sp ts s after : source ts' w (lit ")" ++ s ++ after) ->
    source ts s after -> source (TkGroup sp ts' :: ts) (lit "(" ++ w ++ lit ")" ++ s) after.
