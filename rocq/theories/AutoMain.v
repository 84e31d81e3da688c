(** * AutoMain: autonibble/src/main.rs, and chomp on a text. *)
From Coq Require Import String.
From Verif Require Export AutoNibble Source Main.
From Coq Require Import List.
Open Scope list_scope.

(** The errors autonibble's [main] reports, by their source. *)
Inductive auto_error :=
| AParse (e : parse_error)
| ALater (e : main_error).

(** autonibble/src/main.rs:25-57.  The generated parser gets [pfuel] steps, the
    reduction [fuel]; reading stdin and printing are not modelled. *)
Definition auto_main (cs : casing) (pfuel fuel : nat) (input : rstr)
    : res (list entry * nat * (list nat * (rstr * tname))) auto_error :=
  res_bind (res_map_err AParse (GenSem.parse_str auto_tab pfuel auto_root input)) (fun ast =>
  res_bind (res_map_err (fun x => ALater (MConvert x)) (auto_convert ast)) (fun expr =>
  res_bind (res_map_err (fun x => ALater (MReduce x)) (reduce fuel expr)) (fun term =>
  res_bind (res_map_err (fun x => ALater (MType x)) (typecheck term)) (fun typed =>
  match generate cs typed with
  | None => Panic
  | Some (backend, id) =>
    match emit_code None id backend with
    | None => Panic
    | Some code => Ok (data backend, id, code)
    end
  end)))).

(** src/main.rs:22-55 on a text: [syn::parse_str] and the rest.  A text outside
    the subset of Source counts as rejected. *)
Definition chomp_main (join : span -> span -> option span) (cs : casing) (fuel : nat) (input : rstr)
    : res (list entry * nat * (list nat * (rstr * tname))) main_error :=
  match text_tokens input with None => Err MParse | Some ts => chomp join cs fuel ts end.
