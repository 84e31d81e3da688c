(** * AutoTable: the compiler run on autonibble's grammar, once. *)
From Verif Require Import EmitFacts AutoNibble Warm.
From Coq Require Import List.

(** [chomp], with the type inference of Warm.v. *)
Definition chomp_warm (join : span -> span -> option span) (cs : casing) (fuel : nat) (ts : list token) :=
  match parse_program ts with
  | Some s =>
    match convert_program join s with
    | Ok e =>
      match reduce fuel e with
      | Ok v =>
        match warm fuel (e_name v) tctx_default v None with
        | Some r => match generate cs r with Some (b, id) => option_map (fun code => (data b, id, code)) (emit_code None id b) | None => None end
        | None => None
        end
      | _ => None
      end
    | _ => None
    end
  | None => None
  end.
Lemma chomp_warm_chomp join cs fuel ts x : chomp_warm join cs fuel ts = Some x -> chomp join cs fuel ts = Ok x.
Proof.
  unfold chomp_warm, chomp. destruct (parse_program ts) as [s |]; [| discriminate]. destruct (convert_program join s) as [e | | |]; try discriminate. cbn [res_map_err res_bind]. destruct (reduce fuel e) as [v | | |]; try discriminate. cbn [res_map_err res_bind].
  destruct (warm _ _ _ _ _) as [r |] eqn:E; [| discriminate]. rewrite (typecheck_warm _ _ _ E). cbn [res_map_err res_bind]. destruct (generate cs r) as [[b id] |]; [| discriminate]. destruct (emit_code None id b); [| discriminate]. now intros [= <-].
Qed.
Definition auto_code := Eval vm_compute in match chomp_warm (fun _ _ => None) heck 500 (tokens_of auto_source) with Some (_, _, c) => Some c | None => None end.
Definition with_code {A B C} (a : A) (b : B) (c : option C) : option (A * B * C) := option_map (fun c => (a, b, c)) c.
Lemma auto_warm : chomp_warm (fun _ _ => None) heck 500 (tokens_of auto_source) = with_code auto_tab auto_root auto_code.
Proof. vm_compute. reflexivity. Qed.
Lemma auto_compiled : exists out, auto_chomp = Ok (auto_tab, auto_root, out).
Proof. exists (match auto_code with Some c => c | None => (nil, (nil, TnEpsilon)) end). apply chomp_warm_chomp. rewrite auto_warm. reflexivity. Qed.
(** All characters of the literals but the last are ASCII. *)
Lemma auto_lits : forallb (fun x => match en_def x with DLit w _ => forallb (fun c => N.ltb c 128) (removelast w) | _ => true end) auto_tab = true.
Proof. vm_compute. reflexivity. Qed.
