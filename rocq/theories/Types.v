(** * Types: [Type] of src/chomp/typed/mod.rs *)
From Verif Require Export Sets.

(** src/chomp/typed/mod.rs:19-24 [Type] *)
Record ty := Ty { nullable : bool; first_set : cset; flast_set : cset }.

(** derived [Default] *)
(** src/chomp/typed/mod.rs:19, the derived [Default] of [Type] *)
Definition ty_default : ty := Ty false cset_new cset_new.

(** derived [PartialEq] *)
(** src/chomp/typed/mod.rs:19, the derived [PartialEq] of [Type] *)
Definition ty_eqb (a b : ty) : bool :=
  Bool.eqb (nullable a) (nullable b)
  && cset_eqb (first_set a) (first_set b)
  && cset_eqb (flast_set a) (flast_set b).

(** src/chomp/typed/mod.rs:35-41 [Type::of_str] *)
Definition ty_of_str (s : rstr) : ty :=
  Ty (match s with [] => true | _ => false end) (cset_of_str s) cset_new.

(** src/chomp/typed/mod.rs:82-88: the type of an epsilon. *)
Definition ty_eps : ty := Ty true cset_new cset_new.

(** src/chomp/typed/mod.rs:55-68 [Type::cat] *)
Definition ty_cat (self other : ty) : ty :=
  let first := if nullable self then cset_union (first_set self) (first_set other)
               else first_set self in
  let flast := if nullable other
               then cset_union (cset_union (flast_set self) (first_set other)) (flast_set other)
               else flast_set other in
  Ty (nullable self && nullable other) first flast.

(** src/chomp/typed/mod.rs:70-74 [Type::alt] *)
Definition ty_alt (self other : ty) : ty :=
  Ty (nullable self || nullable other)
     (cset_union (first_set self) (first_set other))
     (cset_union (flast_set self) (flast_set other)).
