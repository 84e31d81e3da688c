(** * Runtime: the [chewed] crate, the library generated parsers run on. *)
From Verif Require Export Base.

(** chewed/src/position.rs:3-15 [LineCol], [Default for LineCol] *)
Record linecol := LC { line : nat; col : nat }.
(** chewed/src/position.rs:11-15 *)
Definition linecol_default : linecol := LC 1 0.

(** chewed/src/error.rs:5-10 [TakeError] *)
Inductive take_error :=
| BadBranch (p : linecol) (got : char) (expected : list char)
| BadString (p : linecol) (got : rstr) (expected : rstr)
| EndOfStream (p : linecol).

(** chewed/src/error.rs:45-49 [ParseError] *)
Inductive parse_error :=
| PTake (e : take_error)
| InputContinues (p : linecol).

(** The position inside an error (each variant's first field). *)
(** chewed/src/error.rs:5-10, the first fields *)
Definition terr_pos (e : take_error) : linecol :=
  match e with
  | BadBranch p _ _ => p
  | BadString p _ _ => p
  | EndOfStream p => p
  end.

(** chewed/src/parse.rs:124-128 [IterWrapper]; the wrapped iterator is the
    list of the characters it has still to produce. *)
Record iw := IW { ipos : linecol; inext : option char; irest : list char }.

(** chewed/src/parse.rs:130-138 [IterWrapper::new] *)
Definition iw_new (s : rstr) : iw := IW linecol_default None s.

(** chewed/src/parse.rs:177-179 [pos] *)
Definition iw_pos (st : iw) : linecol := ipos st.

(** chewed/src/parse.rs:169-175 [peek] *)
Definition iw_peek (st : iw) : option char * iw :=
  match inext st with
  | Some c => (Some c, st)
  | None =>
    match irest st with
    | [] => (None, IW (ipos st) None [])
    | c :: r => (Some c, IW (ipos st) (Some c) r)
    end
  end.

(** chewed/src/parse.rs:141-167, part of [next] *)
Definition LF : char := 10%N.
(** chewed/src/parse.rs:141-167, part of [next] *)
Definition CR : char := 13%N.

(** The first group of patterns of chewed/src/parse.rs:143-148. *)
Definition is_line_break (c : char) : bool :=
  (N.eqb c 10 || N.eqb c 11 || N.eqb c 12 || N.eqb c 133 || N.eqb c 8232 || N.eqb c 8233)%N.

(** chewed/src/parse.rs:141-167, part of [next] *)
Definition pos_newline (p : linecol) : linecol := LC (S (line p)) 0.
(** chewed/src/parse.rs:141-167, part of [next] *)
Definition pos_advance (p : linecol) : linecol := LC (line p) (S (col p)).

(** chewed/src/parse.rs:141-167 [next] *)
Definition iw_next (st : iw) : option char * iw :=
  (* self.next.take().or_else(|| self.iter.next()) *)
  let '(x, st1) :=
    match inext st with
    | Some c => (Some c, IW (ipos st) None (irest st))
    | None =>
      match irest st with
      | [] => (None, IW (ipos st) None [])
      | c :: r => (Some c, IW (ipos st) None r)
      end
    end in
  match x with
  | Some c =>
    if is_line_break c then
      (Some c, IW (pos_newline (ipos st1)) (inext st1) (irest st1))
    else if N.eqb c CR then
      let '(p, st2) := iw_peek st1 in
      match p with
      | Some d =>
        if N.eqb d LF then (Some CR, IW (pos_advance (ipos st2)) (inext st2) (irest st2))
        else (Some CR, IW (pos_newline (ipos st2)) (inext st2) (irest st2))
      | None => (Some CR, IW (pos_newline (ipos st2)) (inext st2) (irest st2))
      end
    else (Some c, IW (pos_advance (ipos st1)) (inext st1) (irest st1))
  | None => (None, IW (pos_advance (ipos st1)) (inext st1) (irest st1))
  end.

(** Number of bytes of a character in UTF-8. *)
(** std [&s[..count]], chewed/src/parse.rs:35 *)
Definition utf8_len (c : char) : nat :=
  if N.ltb c 128%N then 1 else if N.ltb c 2048%N then 2 else if N.ltb c 65536%N then 3 else 4.

(** [&s[..n]] where [n] counts bytes: [None] is the panic raised when [n] is
    not on a character boundary (or beyond the end). *)
(** std [&s[..count]], chewed/src/parse.rs:35 *)
Fixpoint byte_prefix (s : rstr) (n : nat) : option rstr :=
  match n with
  | O => Some []
  | _ =>
    match s with
    | [] => None
    | c :: s' =>
      if Nat.leb (utf8_len c) n then option_map (cons c) (byte_prefix s' (n - utf8_len c))
      else None
    end
  end.

(** chewed/src/parse.rs:26-46 [consume_str]; [cs] is what is left of
    [s.chars()], [count] the counter of matched characters. *)
Fixpoint consume_loop (s cs : rstr) (count : nat) (st : iw) : res unit take_error * iw :=
  match cs with
  | [] => (Ok tt, st)
  | exp :: cs' =>
    let '(p, st1) := iw_peek st in
    match p with
    | Some got =>
      if N.eqb got exp then consume_loop s cs' (S count) (snd (iw_next st1))
      else
        match byte_prefix s count with
        | Some out => (Err (BadString (iw_pos st1) (out ++ [got]) s), st1)
        | None => (Panic, st1)
        end
    | None => (Err (EndOfStream (iw_pos st1)), st1)
    end
  end.
(** chewed/src/parse.rs:26-46 [consume_str] *)
Definition consume_str (s : rstr) (st : iw) : res unit take_error * iw := consume_loop s s 0 st.

(** chewed/src/parse.rs:48-52 [skip_while].  [fuel] bounds the number of
    iterations; see [SpecRuntime]/[RuntimeFacts] for the bound that suffices. *)
Fixpoint skip_while_loop (fuel : nat) (f : char -> bool) (st : iw) : option iw :=
  match fuel with
  | O => None
  | S n =>
    let '(p, st1) := iw_peek st in
    match p with
    | Some c => if f c then skip_while_loop n f (snd (iw_next st1)) else Some st1
    | None => Some st1
    end
  end.
(** Every iteration consumes a character, so this much fuel is never exhausted
    (proved: [skip_while_total]). *)
(** chewed/src/parse.rs:48-52 [skip_while] *)
Definition skip_while (f : char -> bool) (st : iw) : option iw :=
  skip_while_loop (2 + length (irest st)) f st.

(** [set.contains(&c)] on a slice. *)
(** std [contains], chewed/src/parse.rs:58 *)
Definition mem_char (c : char) (l : list char) : bool := existsb (N.eqb c) l.

(** chewed/src/parse.rs:54-64 [take_chars_from]; [n] is the length of the
    buffer, the filled buffer is returned. *)
Fixpoint take_chars_from (set : list char) (n : nat) (st : iw) : res rstr take_error * iw :=
  match n with
  | O => (Ok [], st)
  | S n' =>
    let '(x, st1) := iw_next st in
    match x with
    | None => (Err (EndOfStream (iw_pos st1)), st1)
    | Some c =>
      if mem_char c set then
        let '(r, st2) := take_chars_from set n' st1 in
        (res_map (cons c) r, st2)
      else (Err (BadBranch (iw_pos st1) c set), st1)
    end
  end.

(** chewed/src/parse.rs:86-94 [Iter] with [strict_sep = true] (the only
    constructor is [iter_strict], lines 66-83). *)
Section Iter.
  Context {R : Type}.
  Variable item : iw -> res R take_error * iw.
  Variables (sep stop : char) (sep_stop_set first : list char).

  (** chewed/src/parse.rs:99-121 [Iter::next].  [res] may be an [Err] coming
      from the item parser: the code goes on to look at the next character
      before returning it ([.map(Some).transpose()?] never returns early). *)
  Definition iter_next (st : iw) : option (res R take_error) * iw :=
    let '(p, st1) := iw_peek st in
    match p with
    | None => (None, st1)
    | Some c =>
      if N.eqb c stop then (None, st1)
      else
        let '(r, st2) := item st1 in
        match r with
        | Panic => (Some Panic, st2)
        | OutOfFuel => (Some OutOfFuel, st2)
        | _ =>
          let '(p2, st3) := iw_peek st2 in
          match p2 with
          | None => (Some (Err (EndOfStream (iw_pos st3))), st3)
          | Some c2 =>
            if N.eqb c2 sep then
              let st4 := snd (iw_next st3) in
              let '(p3, st5) := iw_peek st4 in
              match p3 with
              | None => (Some (Err (EndOfStream (iw_pos st5))), st5)
              | Some c3 =>
                if mem_char c3 first then (Some r, st5)
                else (Some (Err (BadBranch (iw_pos st5) c3 first)), st5)
              end
            else if N.eqb c2 stop then (Some r, st3)
            else (Some (Err (BadBranch (iw_pos st3) c2 sep_stop_set)), st3)
          end
        end
    end.

  (** [.collect::<Result<Vec<_>, _>>()] over the iterator: stops at the first
      error. *)
  (** std [collect], on [Iter] of chewed/src/parse.rs:86-121 *)
  Fixpoint iter_collect (fuel : nat) (st : iw) : res (list R) take_error * iw :=
    match fuel with
    | O => (OutOfFuel, st)
    | S n =>
      let '(x, st1) := iter_next st in
      match x with
      | None => (Ok [], st1)
      | Some (Ok v) =>
        let '(r, st2) := iter_collect n st1 in
        (res_map (cons v) r, st2)
      | Some (Err e) => (Err e, st1)
      | Some Panic => (Panic, st1)
      | Some OutOfFuel => (OutOfFuel, st1)
      end
    end.
End Iter.

(** chewed/src/parse.rs:185-193 [Parse::parse] for a type whose [take] is
    [take]. *)
Definition parse_with {R} (take : iw -> res R take_error * iw) (st : iw) : res R parse_error :=
  let '(r, st1) := take st in
  match r with
  | Ok v =>
    match fst (iw_peek st1) with
    | Some _ => Err (InputContinues (iw_pos (snd (iw_peek st1))))
    | None => Ok v
    end
  | Err e => Err (PTake e)
  | Panic => Panic
  | OutOfFuel => OutOfFuel
  end.

(** chewed/src/parse.rs:199-201 [Parse::parse_str] *)
Definition parse_str_with {R} (take : iw -> res R take_error * iw) (s : rstr) : res R parse_error :=
  parse_with take (iw_new s).
