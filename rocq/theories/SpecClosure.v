(** * SpecClosure: three counted blocks. *)
From Verif Require Export SpecResidual.

(** As many of each of three characters, in order. *)
Definition triples (x y z : char) : lang := fun w => exists n, w = repeat x n ++ repeat y n ++ repeat z n.
(** As many of the first two, any number of the third. *)
Definition first_two (x y z : char) : lang := fun w => exists n m, w = repeat x n ++ repeat y n ++ repeat z m.
(** Any number of the first, as many of the other two. *)
Definition last_two (x y z : char) : lang := fun w => exists n m, w = repeat x m ++ repeat y n ++ repeat z n.
(** A text over two characters followed by itself backwards; the same with a mark
    between the halves. *)
Definition mirrored (x y : char) : lang := fun w => exists v, Forall (fun z => z = x \/ z = y) v /\ w = v ++ rev v.
Definition marked (x y m : char) : lang := fun w => exists v, Forall (fun z => z = x \/ z = y) v /\ w = v ++ m :: rev v.
(** At most as many of the second as there are of the first before them (each
    [else] has its [if], not each [if] an [else]); at least as many. *)
Definition at_most (x y : char) : lang := fun w => exists n m, m <= n /\ w = repeat x n ++ repeat y m.
Definition at_least (x y : char) : lang := fun w => exists n m, n <= m /\ w = repeat x n ++ repeat y m.
(** [Xs] one after another, where one character tells whether the front goes on or
    the rest begins, wherever they are divided. *)
Definition told_apart (Xs : list lang) : Prop := forall Us Vs c, Xs = Us ++ Vs -> continues (cats Us) c -> ~ begins (cats Vs) c.
