(** * Depth: how deeply the calls made by the generated code are nested.

    The stack a generated parser (or printer) uses.  One frame for each call of
    [take] of a struct, an enum, a literal, [Epsilon] or [Box] (a recursive type
    is an alias, [pub type Fix = Inner], and has no [take] of its own). *)
From Verif Require Export GenSem.

(** src/lower/mod.rs:248-253, 267-272: the parts of a struct are taken one
    after the other, up to the first error. *)
Fixpoint depth_seq (take : nat -> iw -> res tree take_error * iw) (depth : nat -> iw -> nat) (ids : list nat) (st : iw) : nat :=
  match ids with
  | [] => 0
  | id :: ids' =>
    Nat.max (depth id st)
      (let '(r, st1) := take id st in
       match r with Ok _ => depth_seq take depth ids' st1 | _ => 0 end)
  end.
(** The nesting of the calls of [take] in [take tab fuel id st], itself
    included: src/lower/mod.rs:193-197 (literals), 248-253 and 267-272
    (structs), 333-356 (enums), 401 (aliases), chewed/src/parse.rs:213-223
    ([Epsilon] and [Box]).  Same recursion as [take]. *)
Fixpoint depth (tab : table) (fuel : nat) (id : nat) (st : iw) : nat :=
  match fuel with
  | O => 0
  | S n =>
    match def_of tab id with
    | None => 0
    | Some DEps => 1
    | Some (DLit _ _) => 1
    | Some (DCat _ _ ids) => 1 + depth_seq (take tab n) (depth tab n) ids st
    | Some (DAlt _ ids firsts null _ _) =>
      let '(p, st1) := iw_peek st in
      1 +
      match
        match match p with Some c => pick_arm c firsts | None => None end with
        | Some k => Some k
        | None => null
        end
      with
      | Some k => match nth_error ids k with Some j => depth tab n j st1 | None => 0 end
      | None => 0
      end
    | Some (DFix None) => 0
    | Some (DFix (Some j)) => depth tab n j st
    | Some (DBox f) => 1 + depth tab n f st
    end
  end.

(** The same for printing, [Display::fmt]: src/lower/mod.rs:187-191, 241-246,
    260-265, 324-330, chewed/src/parse.rs:207-211. *)
Fixpoint fmt_depth_seq (depth : nat -> tree -> nat) (ids : list nat) (ts : list tree) : nat :=
  match ids, ts with
  | id :: ids', t :: ts' => Nat.max (depth id t) (fmt_depth_seq depth ids' ts')
  | _, _ => 0
  end.
Fixpoint fmt_depth (tab : table) (fuel : nat) (id : nat) (t : tree) : nat :=
  match fuel with
  | O => 0
  | S n =>
    match def_of tab id, t with
    | Some DEps, _ => 1
    | Some (DLit _ _), _ => 1
    | Some (DCat _ _ ids), NCat ts => 1 + fmt_depth_seq (fmt_depth tab n) ids ts
    | Some (DAlt _ ids _ _ _ _), NAlt k t' =>
      1 + match nth_error ids k with Some j => fmt_depth tab n j t' | None => 0 end
    | Some (DFix (Some j)), _ => fmt_depth tab n j t
    | Some (DBox f), NBox t' => 1 + fmt_depth tab n f t'
    | _, _ => 0
    end
  end.
