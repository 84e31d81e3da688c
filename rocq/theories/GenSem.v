(** * GenSem: what the generated code does.

    [take] interprets the [Parse] implementations spliced by src/lower/mod.rs
    (and those of chewed for [Epsilon] and [Box]); the generated source refers
    to types by name, the model by their position in the table, which is the
    same as long as the names are distinct (property C32; rustc rejects the
    code otherwise). *)
From Verif Require Export Lower Runtime SpecLang.

(** [data] of src/lower/mod.rs:31 *)
Definition table := list entry.
(** [data] of src/lower/mod.rs:31 *)
Definition def_of (tab : table) (id : nat) : option def := option_map en_def (nth_error tab id).

(** The arms [#firsts => ...] of the generated [match input.peek()]. *)
(** src/lower/mod.rs:333-356 *)
Fixpoint pick_arm (c : char) (arms : list (nat * list char)) : option nat :=
  match arms with
  | [] => None
  | (k, cs) :: arms' => if mem_char c cs then Some k else pick_arm c arms'
  end.

(** A sequence of [let part = input.take()?;]. *)
(** src/lower/mod.rs:248-253, 267-272 *)
Fixpoint take_seq (take : nat -> iw -> res tree take_error * iw) (ids : list nat) (st : iw)
    : res (list tree) take_error * iw :=
  match ids with
  | [] => (Ok [], st)
  | id :: ids' =>
    let '(r, st1) := take id st in
    match r with
    | Ok t =>
      let '(rs, st2) := take_seq take ids' st1 in
      (res_map (cons t) rs, st2)
    | Err e => (Err e, st1)
    | Panic => (Panic, st1)
    | OutOfFuel => (OutOfFuel, st1)
    end
  end.

(** [Ok(Self::Branch(input.take()?))] *)
(** src/lower/mod.rs:333-356 *)
Definition take_branch (take : nat -> iw -> res tree take_error * iw) (ids : list nat) (k : nat) (st : iw)
    : res tree take_error * iw :=
  match nth_error ids k with
  | None => (Panic, st)
  | Some id => let '(r, st1) := take id st in (res_map (NAlt k) r, st1)
  end.

(** [T::take].  A dangling id would not compile; it is rendered as [Panic]. *)
Fixpoint take (tab : table) (fuel : nat) (id : nat) (st : iw) : res tree take_error * iw :=
  match fuel with
  | O => (OutOfFuel, st)
  | S n =>
    match def_of tab id with
    | None => (Panic, st)
    | Some DEps => (Ok NEps, st)                       (* chewed/src/parse.rs:213-217 *)
    | Some (DLit s _) =>                               (* src/lower/mod.rs:193-197 *)
      let '(r, st1) := consume_str s st in
      (res_map (fun _ => NLit s) r, st1)
    | Some (DCat _ _ ids) =>                           (* src/lower/mod.rs:248-253, 267-272 *)
      let '(r, st1) := take_seq (take tab n) ids st in
      (res_map NCat r, st1)
    | Some (DAlt _ ids firsts null all_firsts _) =>    (* src/lower/mod.rs:333-356 *)
      let '(p, st1) := iw_peek st in
      match match p with Some c => pick_arm c firsts | None => None end with
      | Some k => take_branch (take tab n) ids k st1
      | None =>
        match null with
        | Some k => take_branch (take tab n) ids k st1
        | None =>
          match p with
          | Some c => (Err (BadBranch (iw_pos st1) c all_firsts), st1)
          | None => (Err (EndOfStream (iw_pos st1)), st1)
          end
        end
      end
    | Some (DFix None) => (Panic, st)
    | Some (DFix (Some j)) => take tab n j st          (* [pub type Fix = Inner], src/lower/mod.rs:401 *)
    | Some (DBox f) =>                                 (* chewed/src/parse.rs:219-223 *)
      let '(r, st1) := take tab n f st in
      (res_map NBox r, st1)
    end
  end.

(** [T::parse_str] *)
(** chewed/src/parse.rs:199-201 *)
Definition parse_str (tab : table) (fuel : nat) (id : nat) (s : rstr) : res tree parse_error :=
  parse_str_with (take tab fuel id) s.

(** [to_string] of a value of type [id]: the generated [Display]
    implementations (src/lower/mod.rs:187-191, 241-246, 260-265, 324-330,
    chewed/src/parse.rs:207-211; [Box] prints its content).  [None] for a value
    that is not of the type. *)
Fixpoint print_seq (print : nat -> tree -> option rstr) (ids : list nat) (ts : list tree) : option rstr :=
  match ids, ts with
  | [], [] => Some []
  | id :: ids', t :: ts' =>
    match print id t, print_seq print ids' ts' with
    | Some a, Some b => Some (a ++ b)
    | _, _ => None
    end
  | _, _ => None
  end.
(** std [ToString] by the [Display] implementations above *)
Fixpoint to_string (tab : table) (fuel : nat) (id : nat) (t : tree) : option rstr :=
  match fuel with
  | O => None
  | S n =>
    match def_of tab id, t with
    | Some DEps, NEps => Some []
    | Some (DLit s _), NLit s' => if rstr_eqb s s' then Some s else None
    | Some (DCat _ _ ids), NCat ts => print_seq (to_string tab n) ids ts
    | Some (DAlt _ ids _ _ _ _), NAlt k t' =>
      match nth_error ids k with Some j => to_string tab n j t' | None => None end
    | Some (DFix (Some j)), _ => to_string tab n j t
    | Some (DBox f), NBox t' => to_string tab n f t'
    | _, _ => None
    end
  end.

(** [From<T> for char] (src/lower/mod.rs:200-209, 358-369): the conversion of a
    value of type [id], if the type has one; [None] also when a branch's
    payload has none (that would not compile). *)
Fixpoint to_char (tab : table) (id : nat) (t : tree) {struct t} : option char :=
  match def_of tab id with
  | Some (DLit _ conv) => conv
  | Some (DAlt _ ids _ _ _ true) =>
    match t with
    | NAlt k t' => match nth_error ids k with Some j => to_char tab j t' | None => None end
    | _ => None
    end
  | _ => None
  end.

(** Whether a type has a conversion to [char]. *)
(** src/lower/mod.rs:200-209, 358-369: which types have [From<T> for char] *)
Definition has_char (tab : table) (id : nat) : bool :=
  match def_of tab id with
  | Some (DLit _ (Some _)) => true
  | Some (DAlt _ _ _ _ _ true) => true
  | _ => false
  end.

(** Number of calls of [take] (of any generated or library type) made by
    [take tab fuel id st], itself included. *)
(** no code of its own: counts the calls of the [take] functions of src/lower/mod.rs:193-197, 248-253, 267-272, 333-356 *)
Fixpoint calls_seq (take : nat -> iw -> res tree take_error * iw) (calls : nat -> iw -> nat) (ids : list nat) (st : iw) : nat :=
  match ids with
  | [] => 0
  | id :: ids' =>
    calls id st +
    let '(r, st1) := take id st in
    match r with Ok _ => calls_seq take calls ids' st1 | _ => 0 end
  end.
(** no code of its own: counts the calls of the [take] functions of src/lower/mod.rs:193-197, 248-253, 267-272, 333-356 *)
Fixpoint calls (tab : table) (fuel : nat) (id : nat) (st : iw) : nat :=
  match fuel with
  | O => 1
  | S n =>
    1 +
    match def_of tab id with
    | Some (DCat _ _ ids) => calls_seq (take tab n) (calls tab n) ids st
    | Some (DAlt _ ids firsts null _ _) =>
      let '(p, st1) := iw_peek st in
      let k := match match p with Some c => pick_arm c firsts | None => None end with
               | Some k => Some k
               | None => null
               end in
      match k with
      | Some k => match nth_error ids k with Some j => calls tab n j st1 | None => 0 end
      | None => 0
      end
    | Some (DFix (Some j)) => calls tab n j st
    | Some (DBox f) => calls tab n f st
    | _ => 0
    end
  end.

(** The number of nodes of a value. *)
(** no code of its own: a measure of the values of the generated types *)
Fixpoint tree_size (t : tree) : nat :=
  match t with
  | NEps | NLit _ => 1
  | NCat ts => S ((fix go l := match l with [] => 0 | x :: l' => tree_size x + go l' end) ts)
  | NAlt _ t' | NBox t' => S (tree_size t')
  end.
