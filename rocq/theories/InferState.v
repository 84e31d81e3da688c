(** * InferState: type inference with the context threaded as mutable state,
    exactly as src/chomp/typed/infer.rs does through [&mut Context]. *)
From Verif Require Export Infer.

(** src/chomp/typed/context.rs:20-25 [with_unguard] ([Vec::pop] on an empty
    vector does nothing) *)
Definition with_unguard {R} (f : tctx -> R * tctx) (c : tctx) : R * tctx :=
  let '(r, c1) := f (push_unguard c) in (r, TCtx (vars c1) (tl (unguard_points c1))).
(** src/chomp/typed/context.rs:41-46 [with_variable_type] *)
Definition with_variable_type {R} (t : ty) (f : tctx -> R * tctx) (c : tctx) : R * tctx :=
  let '(r, c1) := f (push_var t c) in (r, TCtx (tl (vars c1)) (unguard_points c1)).

(** src/chomp/typed/infer.rs:130-147 *)
Fixpoint fix_loop_st (step : ty -> tctx -> res texpr type_error * tctx) (n : nat) (last : ty) (c : tctx)
  : res texpr type_error * tctx :=
  match n with
  | O => (OutOfFuel, c)
  | S n' =>
    let '(x, c1) := with_variable_type last (step last) c in
    match x with
    | Ok r => if ty_eqb last (get_type r) then (Ok r, c1) else fix_loop_st step n' (get_type r) c1
    | other => (other, c1)
    end
  end.

(** src/chomp/typed/infer.rs:22-191 *)
Fixpoint infer_st (fuel : nat) (nm : option name) (e : nexpr) (c : tctx) {struct e} : res texpr type_error * tctx :=
  match e with
  | EEps a => (Ok (TEps (Ann nm (a_span a)) ty_eps), c)
  | ELit a s => (Ok (TLit (Ann nm (a_span a)) s (ty_of_str s)), c)
  | ECat a first rest =>
    let '(x, c1) := infer_st fuel (e_name first) first c in
    match x with
    | Ok first' =>
      if nullable (get_type first') then
        (Err (FirstNullable first' (match rest with [] => call_site | (p, _) :: _ => p end)), c1)
      else
        let go := fix go (l : list (span * nexpr)) (t : ty) (c : tctx) : res (list texpr * ty) type_error * tctx :=
             match l with
             | [] => (Ok ([], t), c)
             | (punct, rgt) :: l' =>
               let '(y, c2) := infer_st fuel (e_name rgt) rgt c in
               match y with
               | Ok rgt' =>
                 if cset_disjoint (flast_set t) (first_set (get_type rgt')) then
                   let '(z, c3) := go l' (ty_cat t (get_type rgt')) c2 in
                   (res_map (fun p => (rgt' :: fst p, snd p)) z, c3)
                 else (Err (FirstFlastOverlap t punct rgt'), c2)
               | Err x => (Err x, c2)
               | Panic => (Panic, c2)
               | OutOfFuel => (OutOfFuel, c2)
               end
             end in
        let '(z, c2) := with_unguard (go rest (get_type first')) c1 in
        (res_map (fun p => TCat (Ann nm (a_span a)) (first' :: fst p) (snd p)) z, c2)
    | other => (other, c1)
    end
  | EAlt a first rest =>
    let '(x, c1) := infer_st fuel (e_name first) first c in
    match x with
    | Ok first' =>
      let go := fix go (l : list (span * nexpr)) (t : ty) (c : tctx) : res (list texpr * ty) type_error * tctx :=
           match l with
           | [] => (Ok ([], t), c)
           | (punct, rgt) :: l' =>
             let '(y, c2) := infer_st fuel (e_name rgt) rgt c in
             match y with
             | Ok rgt' =>
               if nullable t && nullable (get_type rgt') then (Err (BothNullable t punct rgt'), c2)
               else if cset_disjoint (first_set t) (first_set (get_type rgt')) then
                 let '(z, c3) := go l' (ty_alt t (get_type rgt')) c2 in
                 (res_map (fun p => (rgt' :: fst p, snd p)) z, c3)
               else (Err (FirstOverlap t punct rgt'), c2)
             | Err x => (Err x, c2)
             | Panic => (Panic, c2)
             | OutOfFuel => (OutOfFuel, c2)
             end
           end in
      let '(z, c2) := go rest (get_type first') c1 in
      (res_map (fun p => TAlt (Ann nm (a_span a)) (first' :: fst p) (snd p)) z, c2)
    | other => (other, c1)
    end
  | EFix a inner =>
    match inner with
    | ELam ai _ body =>
      let bname := merge_all [a_name ai; e_name body; nm] in
      let '(x, c1) := fix_loop_st (fun _ c => infer_st fuel bname body c) fuel ty_default c in
      (res_map (TFix (Ann nm (a_span a))) x, c1)
    | _ => (Err (ExpectedLambda (a_span a) inner), c)
    end
  | EVar a i =>
    match get_variable_type c i with
    | Ok t => (Ok (TVar (Ann nm (a_span a)) i t), c)
    | Err x => (Err (VariableError x i (a_span a) nm), c)
    | Panic => (Panic, c)
    | OutOfFuel => (OutOfFuel, c)
    end
  | ECall a _ _ => (Err (UnexpectedCall (a_span a) e), c)
  | ELam a _ _ => (Err (UnexpectedLambda (a_span a) e), c)
  | ELet a _ _ _ => (Err (UnexpectedLet (a_span a) e), c)
  end.
