(** * Examples: concrete grammars used to show that theorems are not vacuous. *)
From Coq Require Import String.
From Verif Require Export Infer Erase.
Open Scope list_scope.

Definition a0 : ann := Ann None 0%N.
Definition nvar (s : string) : name := new_variable (Spanless (lit s)).
Definition nlabel (s : string) : name := new_label (Spanless (lit s)).
Definition nlet (s : string) : name := new_let (Spanless (lit s)).
Definition L (s : string) : nexpr := ELit a0 (lit s).
Definition V (i : nat) : nexpr := EVar a0 i.
Definition cat2 (x y : nexpr) : nexpr := ECat a0 x [(0%N, y)].
Definition cat3 (x y z : nexpr) : nexpr := ECat a0 x [(0%N, y); (0%N, z)].
Definition alt2 (x y : nexpr) : nexpr := EAlt a0 x [(0%N, y)].
Definition fix1 (x : string) (b : nexpr) : nexpr := EFix a0 (ELam a0 [nvar x] b).

(** [!(/x/ "(" . !(/y/ "," . x . y | _) . ")" | "v")]: nested lists. *)
Definition ex_nested : nexpr :=
  fix1 "x" (alt2 (cat3 (L "(") (fix1 "y" (alt2 (cat3 (L ",") (V 1) (V 0)) (EEps a0))) (L ")")) (L "v")).
(** [!(/r/ r . "a" | "b")]: left recursion. *)
Definition ex_leftrec : nexpr := fix1 "r" (alt2 (cat2 (V 0) (L "a")) (L "b")).
(** [!(/r/ "a" . r)]: no word at all. *)
Definition ex_empty : nexpr := fix1 "r" (cat2 (L "a") (V 0)).
(** ["a" | "a" . "b"]: overlapping first sets. *)
Definition ex_overlap : nexpr := alt2 (L "a") (cat2 (L "a") (L "b")).

Definition is_ok {A E} (r : res A E) : bool := match r with Ok _ => true | _ => false end.
