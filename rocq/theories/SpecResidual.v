(** * SpecResidual: what is left of a language after a beginning has been read. *)
From Verif Require Export SpecCombine.

(** Words of the languages one after another. *)
Fixpoint cats (Xs : list lang) : lang :=
  match Xs with
  | [] => fun w => w = []
  | X :: Xs' => lang_cat X (cats Xs')
  end.
(** [w] is left: it completes [u] to a word. *)
Definition residual (L : lang) (u : rstr) : lang := fun w => L (u ++ w).
(** As many of one character as of another after them. *)
Definition counts (x y : char) : lang := fun w => exists n, w = repeat x n ++ repeat y n.
