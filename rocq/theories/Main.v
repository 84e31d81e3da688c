(** * Main: src/main.rs, the whole program. *)
From Coq Require Import String.
From Verif Require Export Convert Reduce Infer Lower.
From Coq Require Import List.
Open Scope list_scope.

(** The errors [main] reports, src/main.rs:27-52, by their source. *)
Inductive main_error :=
| MParse
| MConvert (e : convert_error)
| MReduce (e : red_error)
| MType (e : type_error).

(** src/main.rs:27-55.  The input is given after tokenizing, the output is the
    table of generated types, the index of the root, and the order of emission
    with the alias: reading and writing are not modelled.  [fuel] bounds the
    depth of the reduction. *)
Definition chomp (join : span -> span -> option span) (cs : casing) (fuel : nat) (ts : list token)
    : res (list entry * nat * (list nat * (rstr * tname))) main_error :=
  match parse_program ts with
  | None => Err MParse
  | Some s =>
    res_bind (res_map_err MConvert (convert_program join s)) (fun expr =>
    res_bind (res_map_err MReduce (reduce fuel expr)) (fun term =>
    res_bind (res_map_err MType (typecheck term)) (fun typed =>
    match generate cs typed with
    | None => Panic
    | Some (backend, id) =>
      match emit_code None id backend with
      | None => Panic
      | Some code => Ok (data backend, id, code)
      end
    end)))
  end.
