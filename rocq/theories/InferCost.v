(** * InferCost: how much work type inference does.

    [visits] counts the expressions folded: one for every call of
    [fold_named] (src/chomp/typed/infer.rs:22-191).  The control flow is that of
    [infer] (Infer.v), line by line. *)
From Verif Require Export Infer.
From Coq Require Import List.
Import ListNotations.

(** src/chomp/typed/infer.rs:130-147: the rounds of the loop. *)
Fixpoint loop_visits (step : ty -> res texpr type_error) (vis : ty -> nat) (n : nat) (last : ty) : nat :=
  match n with
  | O => 0
  | S n' =>
    vis last +
    match step last with
    | Ok r => if ty_eqb last (get_type r) then 0 else loop_visits step vis n' (get_type r)
    | _ => 0
    end
  end.
(** src/chomp/typed/infer.rs:41-79: the terms after the first, up to the first
    error. *)
Definition seq_visits (inf : nexpr -> res texpr type_error) (vis : nexpr -> nat) : ty -> list (span * nexpr) -> nat :=
  fix go t l :=
  match l with
  | [] => 0
  | (_, rgt) :: l' =>
    vis rgt +
    match inf rgt with
    | Ok rgt' => if cset_disjoint (flast_set t) (first_set (get_type rgt')) then go (ty_cat t (get_type rgt')) l' else 0
    | _ => 0
    end
  end.
(** src/chomp/typed/infer.rs:81-118: the branches after the first, up to the
    first error. *)
Definition alt_visits (inf : nexpr -> res texpr type_error) (vis : nexpr -> nat) : ty -> list (span * nexpr) -> nat :=
  fix go t l :=
  match l with
  | [] => 0
  | (_, rgt) :: l' =>
    vis rgt +
    match inf rgt with
    | Ok rgt' =>
      if nullable t && nullable (get_type rgt') then 0
      else if cset_disjoint (first_set t) (first_set (get_type rgt')) then go (ty_alt t (get_type rgt')) l' else 0
    | _ => 0
    end
  end.
(** src/chomp/typed/infer.rs:22-191 *)
Fixpoint visits (fuel : nat) (nm : option name) (c : tctx) (e : nexpr) {struct e} : nat :=
  match e with
  | ECat _ first rest =>
    1 + visits fuel (e_name first) c first +
    match infer fuel (e_name first) c first with
    | Ok first' =>
      if nullable (get_type first') then 0
      else seq_visits (fun x => infer fuel (e_name x) (push_unguard c) x) (fun x => visits fuel (e_name x) (push_unguard c) x) (get_type first') rest
    | _ => 0
    end
  | EAlt _ first rest =>
    1 + visits fuel (e_name first) c first +
    match infer fuel (e_name first) c first with
    | Ok first' => alt_visits (fun x => infer fuel (e_name x) c x) (fun x => visits fuel (e_name x) c x) (get_type first') rest
    | _ => 0
    end
  | EFix _ (ELam ai _ body) =>
    let bname := merge_all [a_name ai; e_name body; nm] in
    1 + loop_visits (fun last => infer fuel bname (push_var last c) body) (fun last => visits fuel bname (push_var last c) body) fuel ty_default
  | _ => 1
  end.
