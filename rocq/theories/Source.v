(** * Source: program texts to tokens, and heck, for the programs of the repository.

    Tokenizing is done by proc_macro2 and case conversion by heck 0.3; neither
    is code of the repository.  This file implements both on the subset the
    repository's own grammars use, so that the model can be run on them as they
    are written, and so that the two front ends can be compared on texts
    (PropAuto).  Numbers, comments, brackets, byte and raw strings, literal
    suffixes, line continuations and identifiers outside ASCII are not
    supported: [lex] gives up on them. *)
From Coq Require Import String.
From Verif Require Export Nibble Lower.
From Coq Require Import List.
Open Scope list_scope.

(** ** Characters *)
(** proc_macro2 1.0 (not in the repository), called by [syn::parse_str] in src/main.rs:30 *)
Definition in_range (a b : string) (c : char) : bool := (N.leb (chr a) c && N.leb c (chr b))%bool.
(** proc_macro2 1.0 (not in the repository), called by [syn::parse_str] in src/main.rs:30 *)
Definition is_lower := in_range "a" "z".
(** proc_macro2 1.0 (not in the repository), called by [syn::parse_str] in src/main.rs:30 *)
Definition is_upper := in_range "A" "Z".
(** proc_macro2 1.0 (not in the repository), called by [syn::parse_str] in src/main.rs:30 *)
Definition is_num := in_range "0" "9".
(** proc_macro2 [is_whitespace]: [char::is_whitespace], U+200E and U+200F. *)
(** proc_macro2 1.0 (not in the repository), called by [syn::parse_str] in src/main.rs:30 *)
Definition is_space (c : char) : bool :=
  if N.leb c 127 then (N.eqb c 32 || N.leb 9 c && N.leb c 13)%bool
  else (existsb (N.eqb c) [133; 160; 5760; 8206; 8207; 8232; 8233; 8239; 8287; 12288]%N || N.leb 8192 c && N.leb c 8202)%bool.
(** proc_macro2 1.0 (not in the repository), called by [syn::parse_str] in src/main.rs:30 *)
Definition ident_start (c : char) : bool := (is_lower c || is_upper c || N.eqb c (chr "_"))%bool.
(** proc_macro2 1.0 (not in the repository), called by [syn::parse_str] in src/main.rs:30 *)
Definition ident_rest (c : char) : bool := (ident_start c || is_num c)%bool.
(** proc_macro2 1.0 (not in the repository), called by [syn::parse_str] in src/main.rs:30 *)
Fixpoint split_while (p : char -> bool) (s : rstr) : rstr * rstr :=
  match s with
  | c :: s' => if p c then let '(a, b) := split_while p s' in (c :: a, b) else ([], s)
  | [] => ([], [])
  end.

(** ** String literals *)
(** proc_macro2 1.0 (not in the repository), called by [syn::parse_str] in src/main.rs:30 *)
Definition hex_value (c : char) : option N :=
  if is_num c then Some (c - chr "0")%N
  else if in_range "a" "f" c then Some (c - chr "a" + 10)%N
  else if in_range "A" "F" c then Some (c - chr "A" + 10)%N
  else None.
(** [\u{...}] after the opening brace: at most six digits, a [char] or nothing. *)
(** proc_macro2 1.0 (not in the repository), called by [syn::parse_str] in src/main.rs:30 *)
Definition is_scalar (n : N) : bool := (N.ltb n 55296 || N.leb 57344 n && N.leb n 1114111)%bool.
(** proc_macro2 1.0 (not in the repository), called by [syn::parse_str] in src/main.rs:30 *)
Fixpoint unicode_escape (len : nat) (acc : N) (s : rstr) : option (N * rstr) :=
  match s with
  | c :: s' =>
    if N.eqb c (chr "}") then
      match len with O => None | _ => if is_scalar acc then Some (acc, s') else None end
    else match hex_value c with
         | Some d => if Nat.ltb len 6 then unicode_escape (S len) (16 * acc + d)%N s' else None
         | None => None
         end
  | [] => None
  end.
(** proc_macro2 1.0 (not in the repository), called by [syn::parse_str] in src/main.rs:30 *)
Definition escape (c : char) (s : rstr) : option (N * rstr) :=
  if N.eqb c (chr "n") then Some (10%N, s)
  else if N.eqb c (chr "r") then Some (13%N, s)
  else if N.eqb c (chr "t") then Some (9%N, s)
  else if N.eqb c (chr "0") then Some (0%N, s)
  else if N.eqb c (chr "\") || N.eqb c 34 || N.eqb c 39 then Some (c, s)
  else if N.eqb c (chr "x") then
    match s with
    | a :: b :: s' => 
      match hex_value a, hex_value b with
      | Some x, Some y => if N.ltb x 8 then Some (16 * x + y, s')%N else None
      | _, _ => None
      end
    | _ => None
    end
  else if N.eqb c (chr "u") then
    match s with
    | b :: s' => if N.eqb b (chr "{") then unicode_escape 0 0 s' else None
    | _ => None
    end
  else None.
(** After the opening quote. *)
(** proc_macro2 1.0 (not in the repository), called by [syn::parse_str] in src/main.rs:30 *)
Fixpoint string_lit (fuel : nat) (s : rstr) : option (rstr * rstr) :=
  match fuel, s with
  | S n, c :: s' =>
    if N.eqb c 34 then Some ([], s')
    else
      match (if N.eqb c (chr "\") then match s' with d :: s'' => escape d s'' | [] => None end else if N.eqb c 13 then None else Some (c, s')) with
      | Some (d, rest) => option_map (fun '(v, r) => (d :: v, r)) (string_lit n rest)
      | None => None
      end
  | _, _ => None
  end.

(** ** Tokens *)
(** proc_macro2 1.0 (not in the repository), called by [syn::parse_str] in src/main.rs:30 *)
Definition head_is (p : char -> bool) (s : rstr) : bool := match s with c :: _ => p c | [] => false end.
(** proc_macro2 1.0 (not in the repository), called by [syn::parse_str] in src/main.rs:30 *)
Definition is_op (c : char) : bool := existsb (N.eqb c) (lit "~!@#$%^&*-=+|;:,<.>/?").
(** The tokens up to the end of the text ([closing = false]) or the closing
    parenthesis, and what follows.  The span of a token is what is left of the
    fuel: distinct tokens have distinct spans. *)
(** proc_macro2 1.0 (not in the repository), called by [syn::parse_str] in src/main.rs:30 *)
Fixpoint lex (fuel : nat) (closing : bool) (s : rstr) : option (list token * rstr) :=
  match fuel with
  | O => None
  | S n =>
    let sp := N.of_nat fuel in
    match s with
    | [] => if closing then None else Some ([], [])
    | c :: s' =>
      if is_space c then lex n closing s'
      else if N.eqb c (chr ")") then if closing then Some ([], s') else None
      else if N.eqb c (chr "(") then
        match lex n true s' with
        | Some (ts, rest) => option_map (fun '(l, r) => (TkGroup sp ts :: l, r)) (lex n closing rest)
        | None => None
        end
      else if N.eqb c 34 then
        match string_lit (length s) s' with
        | Some (v, rest) =>
          if head_is ident_start rest then None                                   (* a suffix *)
          else option_map (fun '(l, r) => (TkStr v sp :: l, r)) (lex n closing rest)
        | None => None
        end
      else if ident_start c then
        let '(a, rest) := split_while ident_rest s' in
        if head_is (fun d => N.eqb d 34 || N.eqb d 39 || N.eqb d 35) rest then None   (* byte and raw strings *)
        else option_map (fun '(l, r) => (TkIdent (Ident false (c :: a) sp) :: l, r)) (lex n closing rest)
      else if N.eqb c (chr "/") && head_is (fun d => N.eqb d (chr "/") || N.eqb d (chr "*")) s' then None   (* a comment *)
      else if is_op c then option_map (fun '(l, r) => (TkPunct c sp :: l, r)) (lex n closing s')
      else None
    end
  end.
(** proc_macro2 1.0 (not in the repository), called by [syn::parse_str] in src/main.rs:30 *)
Definition tokens_of (s : string) : list token :=
  match lex (S (String.length s)) false (lit s) with Some (l, _) => l | None => [] end.
(** [syn::parse_str::<Statement>], src/main.rs:29-30, on a text of the subset. *)
Definition text_tokens (s : rstr) : option (list token) := option_map fst (lex (S (length s)) false s).
(** src/main.rs:29-30 *)
Definition chomp_reads (s : rstr) : option stmt :=
  match text_tokens s with Some ts => parse_program ts | None => None end.

(** ** heck *)
(** heck 0.3 (not in the repository), called by src/chomp/name.rs:35-59 *)
Definition to_lower (c : char) : char := if is_upper c then (c + 32)%N else c.
(** heck 0.3 (not in the repository), called by src/chomp/name.rs:35-59 *)
Definition to_upper (c : char) : char := if is_lower c then (c - 32)%N else c.
(** heck 0.3 [transform], without Unicode: the words of an identifier.  [cur]
    is the current word, reversed; [mode] says whether its last letter was
    lower case ([Some true]), upper case ([Some false]) or there was none. *)
(** heck 0.3 (not in the repository), called by src/chomp/name.rs:35-59 *)
Fixpoint words (mode : option bool) (cur : rstr) (s : rstr) : list rstr :=
  let flush (w : rstr) (ws : list rstr) := match w with [] => ws | _ => rev w :: ws end in
  match s with
  | [] => flush cur []
  | c :: s' =>
    if N.eqb c (chr "_") then
      (* an underscore in the middle of a word ends it *)
      flush cur (words None [] s')
    else
      let mode' := if is_lower c then Some true else if is_upper c then Some false else mode in
      match s' with
      | d :: _ =>
        if (match mode' with Some true => true | _ => false end) && is_upper d then flush (c :: cur) (words None [] s')
        else if (match mode with Some false => true | _ => false end) && is_upper c && is_lower d then flush cur (words None [c] s')
        else words mode' (c :: cur) s'
      | [] => flush (c :: cur) []
      end
  end.
(** heck 0.3 (not in the repository), called by src/chomp/name.rs:35-59 *)
Definition capital (w : rstr) : rstr := match w with c :: w' => to_upper c :: map to_lower w' | [] => [] end.
(** heck 0.3 (not in the repository), called by src/chomp/name.rs:35-59 *)
Fixpoint join_words (ws : list rstr) : rstr :=
  match ws with [] => [] | [w] => w | w :: ws' => w ++ chr "_" :: join_words ws' end.
(** heck 0.3 (not in the repository), called by src/chomp/name.rs:35-59 *)
Definition valid_ident (s : rstr) : option rstr :=
  match s with c :: s' => if ident_start c && forallb ident_rest s' then Some s else None | [] => None end.
(** heck 0.3 (not in the repository), called by src/chomp/name.rs:35-59 *)
Definition heck : casing :=
  Casing (fun s => valid_ident (concat (map capital (words None [] s)))) (fun s => valid_ident (join_words (map (map to_lower) (words None [] s)))).
