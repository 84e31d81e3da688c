(** * Rust: the items that [emit_code] prints, with their names, and what a
    program made of them does.

    [Lower] and [GenSem] refer to types by their position in the backend's
    table.  Here the templates of src/lower/mod.rs are rendered as Rust items
    that refer to types, fields, variants and local variables by name, and the
    meaning is defined on the items alone: types are looked up by name, the type
    of [input.take()?] is inferred from the place its variable is used in.

    Simplified: attributes, doc comments, visibility, lifetimes, spans and
    [use ::chewed::*] are dropped; only the expressions of the templates exist. *)
From Coq Require Import String.
From Verif Require Export GenSem.
From Coq Require Import List.
Open Scope list_scope.

(** ** Syntax *)

(** [self.name] or [self.0] *)
(** the templates of src/lower/mod.rs:181-209, 232-275, 313-369, 401 *)
Inductive member := MName (s : rstr) | MIndex (n : nat).
(** the templates of src/lower/mod.rs:181-209, 232-275, 313-369, 401 *)
Definition member_eqb (a b : member) : bool :=
  match a, b with
  | MName s, MName t => rstr_eqb s t
  | MIndex n, MIndex m => Nat.eqb n m
  | _, _ => false
  end.

(** the templates of src/lower/mod.rs:181-209, 232-275, 313-369, 401 *)
Inductive shape :=
| SUnit                                   (* [pub struct T;] *)
| STuple (l : list tname)                 (* [pub struct T(pub A, pub B);] *)
| SFields (l : list (rstr * tname))       (* [pub struct T { pub a: A, pub b: B }] *)
| SEnum (l : list (rstr * tname))         (* [pub enum T { A(X), B(Y) }] *)
| SAlias (t : tname).                     (* [pub type T = X;] *)

(** Bodies of [Display::fmt] *)
(** the templates of src/lower/mod.rs:181-209, 232-275, 313-369, 401 *)
Inductive fmt_body :=
| FWrite (s : rstr)                       (* [write!(f, "{}", s)] *)
| FMembers (l : list member)              (* [self.m.fmt(f)?; ... Ok(())] *)
| FMatch (l : list rstr).                 (* [match self { Self::V(inner) => inner.fmt(f), ... }] *)

(** What a [Parse::take] made of [let]s ends with. *)
(** the templates of src/lower/mod.rs:181-209, 232-275, 313-369, 401 *)
Inductive init :=
| InFields (l : list (rstr * rstr))       (* [Ok(Self { field: variable, ... })] *)
| InTuple (l : list rstr).                (* [Ok(Self(variable, ...))] *)
(** the templates of src/lower/mod.rs:181-209, 232-275, 313-369, 401 *)
Inductive fallback :=
| OrVariant (v : rstr)                    (* [_ => Ok(Self::V(input.take()?)),] *)
| OrError (cs : list char).               (* [Some(c) => Err(TakeError::BadBranch(input.pos(), c, &[cs])), None => Err(TakeError::EndOfStream(input.pos()))] *)
(** the templates of src/lower/mod.rs:181-209, 232-275, 313-369, 401 *)
Inductive take_body :=
| TConsume (s ret : rstr)                 (* [input.consume_str(s).map(|()| ret)] *)
| TLets (xs : list rstr) (i : init)       (* [let x = input.take()?; ...] and [i] *)
| TMatch (arms : list (list char * rstr)) (d : fallback).
                                          (* [match input.peek() { Some('a') | Some('b') => Ok(Self::V(input.take()?)), ... d }] *)

(** Bodies of [From<T> for char] *)
(** the templates of src/lower/mod.rs:181-209, 232-275, 313-369, 401 *)
Inductive char_body :=
| KConst (c : char)                       (* [c] *)
| KMatch (l : list rstr).                 (* [match alt { T::V(inner) => inner.into(), ... }] *)

(** the templates of src/lower/mod.rs:181-209, 232-275, 313-369, 401 *)
Inductive item :=
| IType (name : rstr) (s : shape)
| IDisplay (name : rstr) (b : fmt_body)
| IParse (name : rstr) (b : take_body)
| IChar (name : rstr) (b : char_body).

(** ** The templates *)

(** src/lower/mod.rs:77-90 [indexes] *)
Definition number_parts (prefix : rstr) (n : nat) : list rstr := map (fun i => prefix ++ dec i) (seq 0 n).
(** src/lower/mod.rs:77-90 *)
Definition indexes (n : nat) : list member := map MIndex (seq 0 n).

(** src/lower/mod.rs:92-97 [ty_names] *)
Definition name_of (d : table) (id : nat) : tname :=
  match nth_error d id with Some en => en_name en | None => TnEpsilon end.

(** The identifier [#name] of a type.  Boxes and [Epsilon] have none, and no
    tokens either. *)
(** src/lower/mod.rs:92-97, 165, 416 *)
Definition ident_of (t : tname) : rstr := match t with TnIdent s => s | _ => [] end.

(** src/lower/mod.rs:181-209, 232-275, 313-369, 401 and 167, 398, 421 (no
    tokens): [Ty::rest].  The names of the parts are looked up in the final
    table: [Ty::name] never changes. *)
Definition items_of (d : table) (en : entry) : list item :=
  let name := ident_of (en_name en) in
  match en_def en with
  | DEps | DBox _ | DFix None => []
  | DLit s conv =>
    [IType name SUnit; IDisplay name (FWrite s); IParse name (TConsume s name)]
    ++ match conv with Some c => [IChar name (KConst c)] | None => [] end
  | DCat named parts ids =>
    let n := length ids in
    let vars := number_parts (lit "part") n in
    if named then
      [IType name (SFields (combine parts (map (name_of d) ids)));
       IDisplay name (FMembers (map MName parts));
       IParse name (TLets vars (InFields (combine parts vars)))]
    else
      [IType name (STuple (map (name_of d) ids));
       IDisplay name (FMembers (indexes n));
       IParse name (TLets vars (InTuple vars))]
  | DAlt parts ids firsts null all_firsts conv =>
    let variant k := nth k parts [] in
    [IType name (SEnum (combine parts (map (name_of d) ids)));
     IDisplay name (FMatch parts);
     IParse name (TMatch (map (fun a => (snd a, variant (fst a))) firsts)
                    (match null with Some k => OrVariant (variant k) | None => OrError all_firsts end))]
    ++ if conv then [IChar name (KMatch parts)] else []
  | DFix (Some j) => [IType name (SAlias (name_of d j))]
  end.
(** src/lower/mod.rs:427-444 *)
Definition items_at (d : table) (id : nat) : list item :=
  match nth_error d id with Some en => items_of d en | None => [] end.

(** src/lower/mod.rs:427-462 [emit_code] *)
Definition emit_items (nm : option name) (id : nat) (b : bst) : option (list item) :=
  match emit_code nm id b with
  | None => None
  | Some (order, (alias, t)) => Some (flat_map (items_at (data b)) order ++ [IType alias (SAlias t)])
  end.

(** ** Meaning *)

(** Values *)
(** the meaning of the code emitted by src/lower/mod.rs:427-462: names are looked up as rustc does *)
Inductive rval :=
| VEps                                         (* [Epsilon] *)
| VBox (v : rval)                              (* [Box::new(v)] *)
| VStruct (name : rstr) (fs : list (member * rval))
| VVariant (enum variant : rstr) (v : rval).

(** the meaning of the code emitted by src/lower/mod.rs:427-462: names are looked up as rustc does *)
Definition program := list item.

(** The items of one kind, with the name of the type they are for. *)
(** the meaning of the code emitted by src/lower/mod.rs:427-462: names are looked up as rustc does *)
Definition sel_type (i : item) : option (rstr * shape) := match i with IType s x => Some (s, x) | _ => None end.
(** the meaning of the code emitted by src/lower/mod.rs:427-462: names are looked up as rustc does *)
Definition sel_display (i : item) : option (rstr * fmt_body) := match i with IDisplay s x => Some (s, x) | _ => None end.
(** the meaning of the code emitted by src/lower/mod.rs:427-462: names are looked up as rustc does *)
Definition sel_parse (i : item) : option (rstr * take_body) := match i with IParse s x => Some (s, x) | _ => None end.
(** the meaning of the code emitted by src/lower/mod.rs:427-462: names are looked up as rustc does *)
Definition sel_char (i : item) : option (rstr * char_body) := match i with IChar s x => Some (s, x) | _ => None end.
(** the meaning of the code emitted by src/lower/mod.rs:427-462: names are looked up as rustc does *)
Fixpoint items {A} (sel : item -> option (rstr * A)) (p : program) : list (rstr * A) :=
  match p with
  | [] => []
  | i :: p' => match sel i with Some x => x :: items sel p' | None => items sel p' end
  end.
(** The declaration of a type, and the implementations for it. *)
(** the meaning of the code emitted by src/lower/mod.rs:427-462: names are looked up as rustc does *)
Definition find_type (p : program) (s : rstr) : option shape := map_get rstr_eqb s (items sel_type p).
(** the meaning of the code emitted by src/lower/mod.rs:427-462: names are looked up as rustc does *)
Definition find_display (p : program) (s : rstr) : option fmt_body := map_get rstr_eqb s (items sel_display p).
(** the meaning of the code emitted by src/lower/mod.rs:427-462: names are looked up as rustc does *)
Definition find_parse (p : program) (s : rstr) : option take_body := map_get rstr_eqb s (items sel_parse p).
(** the meaning of the code emitted by src/lower/mod.rs:427-462: names are looked up as rustc does *)
Definition find_char (p : program) (s : rstr) : option char_body := map_get rstr_eqb s (items sel_char p).

(** The type of the variable [x], from its use in [Self { .. }] or [Self(..)]. *)
(** the meaning of the code emitted by src/lower/mod.rs:427-462: names are looked up as rustc does *)
Fixpoint position (x : rstr) (l : list rstr) : option nat :=
  match l with
  | [] => None
  | y :: l' => if rstr_eqb x y then Some 0 else option_map S (position x l')
  end.
(** the meaning of the templates of src/lower/mod.rs:248-253, 267-272 *)
Definition infer_let (sh : shape) (i : init) (x : rstr) : option tname :=
  match i, sh with
  | InFields fx, SFields fs =>
    match map_get rstr_eqb x (map (fun a => (snd a, fst a)) fx) with
    | Some f => map_get rstr_eqb f fs
    | None => None
    end
  | InTuple xs, STuple ts => match position x xs with Some k => nth_error ts k | None => None end
  | _, _ => None
  end.

(** [Self { .. }], [Self(..)]; [None] would not compile. *)
(** the meaning of the templates of src/lower/mod.rs:248-253, 267-272 *)
Fixpoint build_fields (env : list (rstr * rval)) (l : list (rstr * rstr)) : option (list (member * rval)) :=
  match l with
  | [] => Some []
  | (f, x) :: l' =>
    match map_get rstr_eqb x env, build_fields env l' with
    | Some v, Some fs => Some ((MName f, v) :: fs)
    | _, _ => None
    end
  end.
(** the meaning of the templates of src/lower/mod.rs:248-253, 267-272 *)
Fixpoint build_tuple (env : list (rstr * rval)) (k : nat) (l : list rstr) : option (list (member * rval)) :=
  match l with
  | [] => Some []
  | x :: l' =>
    match map_get rstr_eqb x env, build_tuple env (S k) l' with
    | Some v, Some fs => Some ((MIndex k, v) :: fs)
    | _, _ => None
    end
  end.
(** the meaning of the templates of src/lower/mod.rs:248-253, 267-272 *)
Definition build (env : list (rstr * rval)) (i : init) : option (list (member * rval)) :=
  match i with InFields l => build_fields env l | InTuple l => build_tuple env 0 l end.

(** [let x = input.take()?;] for each variable; the newest first in the result. *)
(** the meaning of the templates of src/lower/mod.rs:248-253, 267-272 *)
Fixpoint run_lets (take : tname -> iw -> res rval take_error * iw) (ty : rstr -> option tname) (xs : list rstr)
    (env : list (rstr * rval)) (st : iw) : res (list (rstr * rval)) take_error * iw :=
  match xs with
  | [] => (Ok env, st)
  | x :: xs' =>
    match ty x with
    | None => (Panic, st)
    | Some t =>
      let '(r, st1) := take t st in
      match r with
      | Ok v => run_lets take ty xs' ((x, v) :: env) st1
      | Err e => (Err e, st1)
      | Panic => (Panic, st1)
      | OutOfFuel => (OutOfFuel, st1)
      end
    end
  end.

(** The first arm that has the character. *)
(** the meaning of the template of src/lower/mod.rs:333-356 *)
Fixpoint find_arm (c : char) (arms : list (list char * rstr)) : option rstr :=
  match arms with
  | [] => None
  | (cs, v) :: arms' => if mem_char c cs then Some v else find_arm c arms'
  end.

(** [Ok(Self::V(input.take()?))] *)
(** the meaning of the template of src/lower/mod.rs:333-356 *)
Definition run_variant (take : tname -> iw -> res rval take_error * iw) (self : rstr) (sh : shape) (v : rstr) (st : iw)
    : res rval take_error * iw :=
  match sh with
  | SEnum vs =>
    match map_get rstr_eqb v vs with
    | None => (Panic, st)
    | Some t => let '(r, st1) := take t st in (res_map (VVariant self v) r, st1)
    end
  | _ => (Panic, st)
  end.

(** [<T as Parse>::take(input)]; what would not compile is rendered as
    [Panic].  Those of [Epsilon] and [Box<T>] are chewed/src/parse.rs:213-223. *)
Fixpoint rtake (p : program) (fuel : nat) (t : tname) (st : iw) : res rval take_error * iw :=
  match fuel with
  | O => (OutOfFuel, st)
  | S n =>
    match t with
    | TnEpsilon => (Ok VEps, st)
    | TnBox t' => let '(r, st1) := rtake p n t' st in (res_map VBox r, st1)
    | TnIdent s =>
      match find_type p s with
      | None => (Panic, st)
      | Some (SAlias t') => rtake p n t' st
      | Some sh =>
        match find_parse p s with
        | None => (Panic, st)
        | Some (TConsume w ret) =>
          let '(r, st1) := consume_str w st in
          (res_map (fun _ => VStruct ret []) r, st1)
        | Some (TLets xs i) =>
          let '(r, st1) := run_lets (rtake p n) (infer_let sh i) xs [] st in
          match r with
          | Ok env => match build env i with Some fs => (Ok (VStruct s fs), st1) | None => (Panic, st1) end
          | Err e => (Err e, st1)
          | Panic => (Panic, st1)
          | OutOfFuel => (OutOfFuel, st1)
          end
        | Some (TMatch arms d) =>
          let '(c, st1) := iw_peek st in
          match match c with Some c => find_arm c arms | None => None end with
          | Some v => run_variant (rtake p n) s sh v st1
          | None =>
            match d with
            | OrVariant v => run_variant (rtake p n) s sh v st1
            | OrError l =>
              match c with
              | Some c => (Err (BadBranch (iw_pos st1) c l), st1)
              | None => (Err (EndOfStream (iw_pos st1)), st1)
              end
            end
          end
        end
      end
    end
  end.

(** [T::parse_str(s)] *)
(** chewed/src/parse.rs:199-201 *)
Definition rparse_str (p : program) (fuel : nat) (t : tname) (s : rstr) : res rval parse_error :=
  parse_str_with (rtake p fuel t) s.

(** the meaning of the templates of src/lower/mod.rs:187-191, 241-246, 260-265, 324-330 *)
Fixpoint get_member (m : member) (l : list (member * option rstr)) : option rstr :=
  match l with
  | [] => None
  | (m', x) :: l' => if member_eqb m m' then x else get_member m l'
  end.
(** the meaning of the templates of src/lower/mod.rs:187-191, 241-246, 260-265, 324-330 *)
Fixpoint concat_members (l : list (member * option rstr)) (ms : list member) : option rstr :=
  match ms with
  | [] => Some []
  | m :: ms' =>
    match get_member m l, concat_members l ms' with
    | Some a, Some b => Some (a ++ b)
    | _, _ => None
    end
  end.
(** [v.to_string()]; [None] would not compile. *)
(** the meaning of the templates of src/lower/mod.rs:187-191, 241-246, 260-265, 324-330 *)
Fixpoint rprint (p : program) (v : rval) : option rstr :=
  match v with
  | VEps => Some []
  | VBox v' => rprint p v'
  | VStruct s fs =>
    match find_display p s with
    | Some (FWrite w) => Some w
    | Some (FMembers ms) =>
      concat_members
        ((fix go (l : list (member * rval)) : list (member * option rstr) :=
            match l with [] => [] | (m, x) :: l' => (m, rprint p x) :: go l' end) fs) ms
    | _ => None
    end
  | VVariant s k v' =>
    match find_display p s with
    | Some (FMatch ks) => if existsb (rstr_eqb k) ks then rprint p v' else None
    | _ => None
    end
  end.

(** [char::from(v)]; [None] would not compile. *)
(** the meaning of the templates of src/lower/mod.rs:200-209, 358-369 *)
Fixpoint rchar (p : program) (v : rval) : option char :=
  match v with
  | VStruct s _ => match find_char p s with Some (KConst c) => Some c | _ => None end
  | VVariant s k v' =>
    match find_char p s with
    | Some (KMatch ks) => if existsb (rstr_eqb k) ks then rchar p v' else None
    | _ => None
    end
  | _ => None
  end.
