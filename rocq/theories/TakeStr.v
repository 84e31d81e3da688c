(** * TakeStr: reading from the front of a text. *)
From Verif Require Export GenSem.

(** chewed/src/parse.rs:195-197 ([Parse::take_str]: [Self::take] on an
    [IterWrapper] over the characters; what is left of the iterator is
    dropped). [tab]/[root] stand for the type it is called on. *)
Definition take_str (tab : table) (fuel : nat) (root : nat) (s : rstr) : res tree take_error := fst (take tab fuel root (iw_new s)).
