(** * RustMain: the Rust items that [main] prints. *)
From Coq Require Import String.
From Verif Require Export Rust Main AutoMain.
From Coq Require Import List.
Open Scope list_scope.

(** src/main.rs:53-55, src/lower/mod.rs:427-462: the code [chomp] returns (the
    table of types, its root, the order of emission and the alias), written out
    as items. *)
Definition code_items (c : list entry * nat * (list nat * (rstr * tname))) : program :=
  let '(tab, _, (order, (alias, t))) := c in flat_map (items_at tab) order ++ [IType alias (SAlias t)].
