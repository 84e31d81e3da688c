(** * Erase: the grammar denoted by an expression of the model. *)
From Verif Require Export Infer SpecLang SpecTyping.

(** Sequence a list of options. *)
Fixpoint all_some {A} (l : list (option A)) : option (list A) :=
  match l with
  | [] => Some []
  | Some x :: l' => option_map (cons x) (all_some l')
  | None :: _ => None
  end.

(** The grammar of a call-free, let-free expression in which lambdas occur
    exactly under fixed points; the body of the lambda under a fix is taken
    with its innermost parameter as the fixed-point variable. *)
Fixpoint gram_of (e : nexpr) : option gram :=
  match e with
  | EEps _ => Some GEps
  | ELit _ s => Some (GLit s)
  | ECat _ f r =>
    match gram_of f, all_some (map (fun x => gram_of (snd x)) r) with
    | Some g, Some gs => Some (GCat (g :: gs))
    | _, _ => None
    end
  | EAlt _ f r =>
    match gram_of f, all_some (map (fun x => gram_of (snd x)) r) with
    | Some g, Some gs => Some (GAlt (g :: gs))
    | _, _ => None
    end
  | EFix _ i =>
    match i with
    | ELam _ _ body => option_map GFix (gram_of body)
    | _ => None
    end
  | EVar _ i => Some (GVar i)
  | ECall _ _ _ | ELam _ _ _ | ELet _ _ _ _ => None
  end.

(** The grammar of a typed expression. *)
Fixpoint gram_of_t (e : texpr) : gram :=
  match e with
  | TEps _ _ => GEps
  | TLit _ s _ => GLit s
  | TCat _ l _ => GCat (map gram_of_t l)
  | TAlt _ l _ => GAlt (map gram_of_t l)
  | TFix _ i => GFix (gram_of_t i)
  | TVar _ i _ => GVar i
  end.

(** A [Type] value read as a specification type. *)
Definition st_of (t : ty) : stype :=
  ST (nullable t = true) (fun c => In c (first_set t)) (fun c => In c (flast_set t)).

(** A typing context read as a typing environment: a variable may be used
    when its binder lies before the last unguard point. *)
Definition env_of (c : tctx) : tenv :=
  map (fun p => (Nat.leb (length (vars c)) (hd 0 (unguard_points c) + fst p), st_of (snd p)))
      (combine (seq 0 (length (vars c))) (vars c)).
