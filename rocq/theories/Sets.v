(** * Sets: src/chomp/set.rs.  [FirstSet] and [FlastSet] both wrap a
    [BTreeSet<char>]; a [BTreeSet] is modelled by the list of its elements in
    iteration (ascending) order. *)
From Verif Require Export Base.

Notation cset := (list N) (only parsing).

(** [BTreeSet::insert] *)
Fixpoint cset_insert (c : char) (s : cset) : cset :=
  match s with
  | [] => [c]
  | d :: s' =>
    match N.compare c d with
    | Lt => c :: d :: s'
    | Eq => d :: s'
    | Gt => d :: cset_insert c s'
    end
  end.

(** src/chomp/set.rs:9-11, 49-51 [FirstSet::new], [FlastSet::new] *)
Definition cset_new : cset := [].

(** src/chomp/set.rs:13-18 [FirstSet::of_str] *)
Definition cset_of_str (s : rstr) : cset :=
  match s with
  | [] => []
  | c :: _ => cset_insert c []
  end.

(** src/chomp/set.rs:20-22, 53-55 [is_empty] *)
Definition cset_is_empty (s : cset) : bool :=
  match s with [] => true | _ => false end.

(** src/chomp/set.rs:24-26, 57-63 [FirstSet::union], [FlastSet::union_first],
    [FlastSet::union]: [BTreeSet::append], i.e. insert every element of the
    other set. *)
Definition cset_union (self other : cset) : cset :=
  fold_left (fun acc c => cset_insert c acc) other self.

(** [BTreeSet::contains] *)
Definition cset_mem (c : char) (s : cset) : bool := existsb (N.eqb c) s.

(** [BTreeSet::intersection] *)
Definition cset_inter (a b : cset) : cset := filter (fun c => cset_mem c b) a.

(** src/chomp/set.rs:28-30, 65-67 [disjoint]: the intersection has no first
    element. *)
Definition cset_disjoint (a b : cset) : bool :=
  match cset_inter a b with [] => true | _ => false end.

(** derived [PartialEq]: element-wise comparison in iteration order. *)
Definition cset_eqb (a b : cset) : bool := rstr_eqb a b.
