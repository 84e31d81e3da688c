(** * Infer: src/chomp/typed/{mod,context,error,infer}.rs *)
From Verif Require Export Types Ast.

(** ** Typed expressions, src/chomp/typed/mod.rs:77-221.
    As for [nexpr], the name and span of [TypedExpression] are in [ann]. *)
Inductive texpr : Type :=
| TEps (a : ann) (t : ty)
| TLit (a : ann) (s : rstr) (t : ty)
| TCat (a : ann) (terms : list texpr) (t : ty)
| TAlt (a : ann) (terms : list texpr) (t : ty)
| TFix (a : ann) (inner : texpr)
| TVar (a : ann) (index : nat) (t : ty).

(** the [name] and [span] fields of src/chomp/typed/mod.rs:217-221 *)
Definition t_ann (e : texpr) : ann :=
  match e with
  | TEps a _ | TLit a _ _ | TCat a _ _ | TAlt a _ _ | TFix a _ | TVar a _ _ => a
  end.
(** the [name] and [span] fields of src/chomp/typed/mod.rs:217-221 *)
Definition t_name (e : texpr) : option name := a_name (t_ann e).

(** src/chomp/typed/mod.rs:238-275 [Typed::get_type] *)
Fixpoint get_type (e : texpr) : ty :=
  match e with
  | TEps _ t | TLit _ _ t | TCat _ _ t | TAlt _ _ t | TVar _ _ t => t
  | TFix _ i => get_type i
  end.

Section TexprInd.
  Variable P : texpr -> Prop.
  Hypothesis Heps : forall a t, P (TEps a t).
  Hypothesis Hlit : forall a s t, P (TLit a s t).
  Hypothesis Hcat : forall a l t, Forall P l -> P (TCat a l t).
  Hypothesis Halt : forall a l t, Forall P l -> P (TAlt a l t).
  Hypothesis Hfix : forall a i, P i -> P (TFix a i).
  Hypothesis Hvar : forall a i t, P (TVar a i t).
  Fixpoint texpr_ind' (e : texpr) : P e :=
    match e with
    | TEps a t => Heps a t
    | TLit a s t => Hlit a s t
    | TCat a l t =>
      Hcat a l t ((fix go l : Forall P l :=
                     match l with
                     | [] => Forall_nil _
                     | x :: l' => Forall_cons _ (texpr_ind' x) (go l')
                     end) l)
    | TAlt a l t =>
      Halt a l t ((fix go l : Forall P l :=
                     match l with
                     | [] => Forall_nil _
                     | x :: l' => Forall_cons _ (texpr_ind' x) (go l')
                     end) l)
    | TFix a i => Hfix a i (texpr_ind' i)
    | TVar a i t => Hvar a i t
    end.
End TexprInd.

(** ** Typing context, src/chomp/typed/context.rs:5-9.  Both vectors are
    lists whose head is the last pushed element. *)
Record tctx := TCtx { vars : list ty; unguard_points : list nat }.
(** src/chomp/typed/context.rs:5, the derived [Default] *)
Definition tctx_default : tctx := TCtx [] [].

(** context.rs:16-18 [depth] *)
Definition tctx_depth (c : tctx) : nat := length (vars c).

(** context.rs:20-25 [with_unguard], the context given to the closure; the
    matching [pop] restores the argument. *)
Definition push_unguard (c : tctx) : tctx :=
  TCtx (vars c) (length (vars c) :: unguard_points c).

(** context.rs:41-46 [with_variable_type], the context given to the closure. *)
Definition push_var (t : ty) (c : tctx) : tctx := TCtx (t :: vars c) (unguard_points c).

(** context.rs:49-53 *)
Inductive get_var_error := FreeVariable | GuardedVariable.

(** context.rs:27-39 [get_variable_type] *)
Definition get_variable_type (c : tctx) (index : nat) : res ty get_var_error :=
  match nth_error (vars c) index with
  | None => Err FreeVariable
  | Some t =>
    if Nat.leb (length (vars c)) (hd 0 (unguard_points c) + index) then Ok t
    else Err GuardedVariable
  end.

(** ** Errors, src/chomp/typed/error.rs:13-114 *)
Inductive type_error :=
| FirstNullable (e : texpr) (punct : span)
| FirstFlastOverlap (front_ty : ty) (punct : span) (next : texpr)
| BothNullable (left_ty : ty) (punct : span) (right : texpr)
| FirstOverlap (left_ty : ty) (punct : span) (right : texpr)
| VariableError (inner : get_var_error) (index : nat) (sp : span) (nm : option name)
| UnexpectedCall (sp : span) (call : nexpr)
| UnexpectedLambda (sp : span) (lambda : nexpr)
| UnexpectedLet (sp : span) (stmt : nexpr)
| ExpectedLambda (sp : span) (fx : nexpr).

(** The loop of src/chomp/typed/infer.rs:130-147 over an arbitrary way
    [step] of typing the body when the variable has a given type. *)
Fixpoint fix_loop (step : ty -> res texpr type_error) (n : nat) (last : ty) : res texpr type_error :=
  match n with
  | O => OutOfFuel
  | S n' =>
    match step last with
    | Ok r => if ty_eqb last (get_type r) then Ok r else fix_loop step n' (get_type r)
    | other => other
    end
  end.

(** ** Inference, src/chomp/typed/infer.rs:22-191.
    [infer fuel nm c e] is the fold of [e] with its name replaced by [nm]
    (line 124 of infer.rs overwrites the name of the body of a fix before
    folding it); the fold of [e] itself is [infer fuel (e_name e) c e].
    [fuel] bounds the iterations of each fixed-point loop. *)
Fixpoint infer (fuel : nat) (nm : option name) (c : tctx) (e : nexpr) {struct e} : res texpr type_error :=
  match e with
  | EEps a => Ok (TEps (Ann nm (a_span a)) ty_eps)                          (* infer.rs:25-31 *)
  | ELit a s => Ok (TLit (Ann nm (a_span a)) s (ty_of_str s))               (* infer.rs:33-39 *)
  | ECat a first rest =>                                                    (* infer.rs:41-79 *)
    match infer fuel (e_name first) c first with
    | Ok first' =>
      if nullable (get_type first') then
        Err (FirstNullable first' (match rest with [] => call_site | (p, _) :: _ => p end))
      else
        let c' := push_unguard c in
        match
          (fix go (t : ty) (l : list (span * nexpr)) : res (list texpr * ty) type_error :=
             match l with
             | [] => Ok ([], t)
             | (punct, rgt) :: l' =>
               match infer fuel (e_name rgt) c' rgt with
               | Ok rgt' =>
                 if cset_disjoint (flast_set t) (first_set (get_type rgt')) then
                   match go (ty_cat t (get_type rgt')) l' with
                   | Ok (ts, t') => Ok (rgt' :: ts, t')
                   | Err x => Err x
                   | Panic => Panic
                   | OutOfFuel => OutOfFuel
                   end
                 else Err (FirstFlastOverlap t punct rgt')
               | Err x => Err x
               | Panic => Panic
               | OutOfFuel => OutOfFuel
               end
             end) (get_type first') rest
        with
        | Ok (ts, t) => Ok (TCat (Ann nm (a_span a)) (first' :: ts) t)
        | Err x => Err x
        | Panic => Panic
        | OutOfFuel => OutOfFuel
        end
    | other => other
    end
  | EAlt a first rest =>                                                    (* infer.rs:81-118 *)
    match infer fuel (e_name first) c first with
    | Ok first' =>
      match
        (fix go (t : ty) (l : list (span * nexpr)) : res (list texpr * ty) type_error :=
           match l with
           | [] => Ok ([], t)
           | (punct, rgt) :: l' =>
             match infer fuel (e_name rgt) c rgt with
             | Ok rgt' =>
               if nullable t && nullable (get_type rgt') then Err (BothNullable t punct rgt')
               else if cset_disjoint (first_set t) (first_set (get_type rgt')) then
                 match go (ty_alt t (get_type rgt')) l' with
                 | Ok (ts, t') => Ok (rgt' :: ts, t')
                 | Err x => Err x
                 | Panic => Panic
                 | OutOfFuel => OutOfFuel
                 end
               else Err (FirstOverlap t punct rgt')
             | Err x => Err x
             | Panic => Panic
             | OutOfFuel => OutOfFuel
             end
           end) (get_type first') rest
      with
      | Ok (ts, t) => Ok (TAlt (Ann nm (a_span a)) (first' :: ts) t)
      | Err x => Err x
      | Panic => Panic
      | OutOfFuel => OutOfFuel
      end
    | other => other
    end
  | EFix a inner =>                                                         (* infer.rs:120-148 *)
    match inner with
    | ELam ai _ body =>
      let bname := merge_all [a_name ai; e_name body; nm] in
      match fix_loop (fun last => infer fuel bname (push_var last c) body) fuel ty_default with
      | Ok r => Ok (TFix (Ann nm (a_span a)) r)
      | other => other
      end
    | _ => Err (ExpectedLambda (a_span a) inner)
    end
  | EVar a i =>                                                             (* infer.rs:150-173 *)
    match get_variable_type c i with
    | Ok t => Ok (TVar (Ann nm (a_span a)) i t)
    | Err x => Err (VariableError x i (a_span a) nm)
    | Panic => Panic
    | OutOfFuel => OutOfFuel
    end
  | ECall a _ _ => Err (UnexpectedCall (a_span a) e)                        (* infer.rs:175-177 *)
  | ELam a _ _ => Err (UnexpectedLambda (a_span a) e)                       (* infer.rs:179-186 *)
  | ELet a _ _ _ => Err (UnexpectedLet (a_span a) e)                        (* infer.rs:188-190 *)
  end.

(** All characters occurring in the literals of an expression. *)
(** no code of its own: bounds the rounds of the loop of src/chomp/typed/infer.rs:130-147 *)
Fixpoint lit_chars (e : nexpr) : list char :=
  match e with
  | EEps _ | EVar _ _ => []
  | ELit _ s => s
  | ECat _ f r | EAlt _ f r => lit_chars f ++ flat_map (fun x => lit_chars (snd x)) r
  | EFix _ i | ELam _ _ i => lit_chars i
  | ECall _ o l => lit_chars o ++ flat_map lit_chars l
  | ELet _ _ x y => lit_chars x ++ lit_chars y
  end.

(** Fuel that provably suffices for [e] in the empty context
    ([InferFacts.infer_terminates]). *)
(** no code of its own: bounds the rounds of the loop of src/chomp/typed/infer.rs:130-147 *)
Definition infer_fuel (e : nexpr) : nat := 2 * length (lit_chars e) + 3.

(** src/main.rs:40-46: inference of a whole program, in the default context. *)
Definition typecheck (e : nexpr) : res texpr type_error :=
  infer (infer_fuel e) (e_name e) tctx_default e.
