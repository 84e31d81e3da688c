(** * SpecJsonDepth: how deep a JSON value is, and the brackets of a text. *)
From Coq Require Import String.
From Verif Require Export SpecJson.
From Coq Require Import List.
Open Scope list_scope.

(** Scalars, the empty array and the empty object have depth 1. *)
Fixpoint value_depth {num} (v : value num) : nat :=
  match v with
  | JNull | JBool _ | JNumber _ | JString _ => 1
  | JArray l => 1 + fold_right Nat.max 0 (map value_depth l)
  | JObject l => 1 + fold_right Nat.max 0 (map (fun kv => value_depth (snd kv)) l)
  end.
(** How many opening brackets a text has, wherever they are. *)
Definition is_open (c : char) : bool := N.eqb c (chr "[") || N.eqb c (chr "{").
Definition opens (w : rstr) : nat := length (filter is_open w).
