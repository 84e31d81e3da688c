(** * Reduce: src/chomp/ast/substitute.rs, src/chomp/ast/error.rs. *)
From Verif Require Export Ast.

(** [v.iter().map(f).collect::<Option<Vec<_>>>()]: used for operations on the
    parts of an expression that may panic. *)
Definition map_opt {A B} (f : A -> option B) : list A -> option (list B) :=
  fix go l :=
  match l with
  | [] => Some []
  | x :: l' =>
    match f x with
    | None => None
    | Some y => match go l' with None => None | Some l'' => Some (y :: l'') end
    end
  end.

(** src/chomp/ast/substitute.rs:13-16 [Direction] *)
Inductive direction := Deepen | Shallow.

(** src/chomp/ast/substitute.rs:75-87 [map_variable]; [None] is the overflow
    of [var.index -= self.by]. *)
Definition rename_index (dir : direction) (by_ depth i : nat) : option nat :=
  if Nat.leb depth i then
    match dir with
    | Deepen => Some (i + by_)
    | Shallow => if Nat.leb by_ i then Some (i - by_) else None
    end
  else Some i.

(** src/chomp/ast/substitute.rs:17-123 [RenameVars]; the field [depth], which
    every method restores, is a parameter. *)
Fixpoint rename_vars (dir : direction) (by_ depth : nat) (e : nexpr) {struct e} : option nexpr :=
  match e with
  | EEps _ | ELit _ _ => Some e
  | ECat a f r =>
    match rename_vars dir by_ depth f,
          map_opt (fun x => option_map (pair (fst x)) (rename_vars dir by_ depth (snd x))) r with
    | Some f', Some r' => Some (ECat a f' r')
    | _, _ => None
    end
  | EAlt a f r =>
    match rename_vars dir by_ depth f,
          map_opt (fun x => option_map (pair (fst x)) (rename_vars dir by_ depth (snd x))) r with
    | Some f', Some r' => Some (EAlt a f' r')
    | _, _ => None
    end
  | EFix a i => option_map (EFix a) (rename_vars dir by_ depth i)
  | EVar a i => option_map (EVar a) (rename_index dir by_ depth i)
  | ECall a o l =>
    match rename_vars dir by_ depth o, map_opt (rename_vars dir by_ depth) l with
    | Some o', Some l' => Some (ECall a o' l')
    | _, _ => None
    end
  | ELam a ns i => option_map (ELam a ns) (rename_vars dir by_ (depth + length ns) i)
  | ELet a n x y =>
    match rename_vars dir by_ depth x, rename_vars dir by_ (depth + 1) y with
    | Some x', Some y' => Some (ELet a n x' y')
    | _, _ => None
    end
  end.

(** src/chomp/ast/substitute.rs:125-129 [Substitute]: the state of the fold. *)
Record subst_st := Subst { s_index : nat; s_expr : nexpr }.

(** src/chomp/ast/substitute.rs:132-147 [with_args] *)
Definition with_args (args : nat) (fold : subst_st -> option (nexpr * subst_st)) (st : subst_st)
    : option (nexpr * subst_st) :=
  match rename_vars Deepen args 0 (s_expr st) with
  | None => None
  | Some x =>
    match fold (Subst (s_index st + args) x) with
    | None => None
    | Some (out, st') =>
      match rename_vars Shallow args 0 (s_expr st') with
      | None => None
      | Some x' =>
        if Nat.leb args (s_index st') then Some (out, Subst (s_index st' - args) x') else None
      end
    end
  end.

(** A fold over the parts of an expression, threading the state. *)
Definition fold_list {A S} (f : A -> S -> option (A * S)) : list A -> S -> option (list A * S) :=
  fix go l st :=
  match l with
  | [] => Some ([], st)
  | x :: l' =>
    match f x st with
    | None => None
    | Some (y, st1) =>
      match go l' st1 with
      | None => None
      | Some (ys, st2) => Some (y :: ys, st2)
      end
    end
  end.

(** src/chomp/ast/substitute.rs:150-266, [Folder for Substitute] *)
Fixpoint substitute (e : nexpr) (st : subst_st) {struct e} : option (nexpr * subst_st) :=
  let parts := fold_list (fun (x : span * nexpr) st =>
    match substitute (snd x) st with None => None | Some (y, st') => Some ((fst x, y), st') end) in
  match e with
  | EEps _ | ELit _ _ => Some (e, st)
  | ECat a f r =>
    match substitute f st with
    | None => None
    | Some (f', st1) => match parts r st1 with None => None | Some (r', st2) => Some (ECat a f' r', st2) end
    end
  | EAlt a f r =>
    match substitute f st with
    | None => None
    | Some (f', st1) => match parts r st1 with None => None | Some (r', st2) => Some (EAlt a f' r', st2) end
    end
  | EFix a i => match substitute i st with None => None | Some (i', st1) => Some (EFix a i', st1) end
  | EVar a i =>
    if Nat.eqb i (s_index st) then
      Some (set_name (merge (e_name (s_expr st)) (a_name a)) (s_expr st), st)
    else Some (EVar a (if Nat.ltb (s_index st) i then i - 1 else i), st)
  | ECall a o l =>
    match substitute o st with
    | None => None
    | Some (o', st1) => match fold_list substitute l st1 with None => None | Some (l', st2) => Some (ECall a o' l', st2) end
    end
  | ELam a ns i =>
    match with_args (length ns) (substitute i) st with
    | None => None
    | Some (i', st1) => Some (ELam a ns i', st1)
    end
  | ELet a n x y =>
    match substitute x st with
    | None => None
    | Some (x', st1) =>
      match with_args 1 (substitute y) st1 with
      | None => None
      | Some (y', st2) => Some (ELet a n x' y', st2)
      end
    end
  end.

(** src/chomp/ast/error.rs:8-19 [ReductionError] *)
Inductive red_error :=
| CallNotAFunction (on : nexpr) (sp : span)
| WrongArgCount (lambda : nexpr) (args : list nexpr) (sp : span).

(** src/chomp/ast/substitute.rs:363-374, the loop of [fold_call]: the
    arguments with their positions and parameter names, last first. *)
Fixpoint bind_args (l : list ((nat * nexpr) * name)) (out : nexpr) : option nexpr :=
  match l with
  | [] => Some out
  | ((i, arg), nm) :: l' =>
    match rename_vars Deepen i 0 (set_name (merge (e_name arg) (Some nm)) arg) with
    | None => None
    | Some arg' =>
      match substitute out (Subst 0 arg') with
      | None => None
      | Some (out', _) => bind_args l' out'
      end
    end
  end.

(** [iter.map(|e| e.fold(self)).collect::<Result<_, _>>()] *)
Fixpoint reduce_list {A} (f : A -> res A red_error) (l : list A) : res (list A) red_error :=
  match l with
  | [] => Ok []
  | x :: l' =>
    match f x with
    | Ok y => match reduce_list f l' with Ok ys => Ok (y :: ys) | Err e => Err e | Panic => Panic | OutOfFuel => OutOfFuel end
    | Err e => Err e
    | Panic => Panic
    | OutOfFuel => OutOfFuel
    end
  end.

(** src/chomp/ast/substitute.rs:271-402, [Folder for Reduce].  [fuel] bounds
    the depth of the recursion. *)
Fixpoint reduce (fuel : nat) (e : nexpr) : res nexpr red_error :=
  match fuel with
  | O => OutOfFuel
  | S n =>
    let part (x : span * nexpr) := res_map (pair (fst x)) (reduce n (snd x)) in
    match e with
    | EEps _ | ELit _ _ | EVar _ _ | ELam _ _ _ => Ok e
    | ECat a f r => res_bind (reduce n f) (fun f' => res_map (ECat a f') (reduce_list part r))
    | EAlt a f r => res_bind (reduce n f) (fun f' => res_map (EAlt a f') (reduce_list part r))
    | EFix a i =>                                                          (* substitute.rs:318-330 *)
      res_bind (reduce n i) (fun i' =>
        match i' with
        | ELam b ns inner => res_map (fun inner' => EFix a (ELam b ns inner')) (reduce n inner)
        | _ => Ok (EFix a i')
        end)
    | ECall a on args =>                                                   (* substitute.rs:345-380 *)
      res_bind (reduce n on) (fun on' =>
        match on' with
        | ELam b ns inner =>
          if Nat.eqb (length ns) (length args) then
            match bind_args (rev (combine (combine (seq 0 (length args)) args) ns)) inner with
            | None => Panic
            | Some out =>
              res_map (fun out' => set_ann (Ann (merge_all [a_name a; e_name on'; e_name out']) (a_span a)) out')
                      (reduce n out)
            end
          else Err (WrongArgCount on' args (a_span a))
        | _ => Err (CallNotAFunction on' (a_span a))
        end)
    | ELet a _ bound body =>                                               (* substitute.rs:390-401 *)
      match substitute body (Subst 0 bound) with
      | None => Panic
      | Some (out, _) =>
        res_map (fun out' => set_ann (Ann (merge (e_name out') (a_name a)) (a_span a)) out') (reduce n out)
      end
    end
  end.
