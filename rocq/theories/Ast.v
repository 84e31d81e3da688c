(** * Ast: src/chomp/ast/mod.rs.

    [NamedExpression { name, span, expr }] and the enum [Expression] are merged
    into one inductive type: every constructor carries the name and the span
    of its [NamedExpression]. *)
From Verif Require Export Names.

(** src/chomp/ast/mod.rs:255-259, the fields [name] and [span] *)
Record ann := Ann { a_name : option name; a_span : span }.

(** src/chomp/ast/mod.rs:15-19, 45-49, 75-78, 86-89, 97-102, 116-121,
    138-144, 152-172, 254-259 *)
Inductive nexpr : Type :=
| EEps (a : ann)
| ELit (a : ann) (s : rstr)
| ECat (a : ann) (first : nexpr) (rest : list (span * nexpr))
| EAlt (a : ann) (first : nexpr) (rest : list (span * nexpr))
| EFix (a : ann) (inner : nexpr)
| EVar (a : ann) (index : nat)
| ECall (a : ann) (on : nexpr) (args : list nexpr)
| ELam (a : ann) (args : list name) (inner : nexpr)
| ELet (a : ann) (nm : name) (bound body : nexpr).

(** the fields [name] and [span] of [NamedExpression], src/chomp/ast/mod.rs:255-259 *)
Definition e_ann (e : nexpr) : ann :=
  match e with
  | EEps a | ELit a _ | ECat a _ _ | EAlt a _ _ | EFix a _ | EVar a _
  | ECall a _ _ | ELam a _ _ | ELet a _ _ _ => a
  end.
(** the fields [name] and [span] of [NamedExpression], src/chomp/ast/mod.rs:255-259 *)
Definition e_name (e : nexpr) : option name := a_name (e_ann e).
(** the fields [name] and [span] of [NamedExpression], src/chomp/ast/mod.rs:255-259 *)
Definition e_span (e : nexpr) : span := a_span (e_ann e).

(** Assignment to the [name] and [span] fields. *)
(** assignment to these fields, as in src/nibble/convert.rs:229-242 and src/chomp/ast/substitute.rs:10-430 *)
Definition set_ann (a : ann) (e : nexpr) : nexpr :=
  match e with
  | EEps _ => EEps a
  | ELit _ s => ELit a s
  | ECat _ f r => ECat a f r
  | EAlt _ f r => EAlt a f r
  | EFix _ i => EFix a i
  | EVar _ i => EVar a i
  | ECall _ o l => ECall a o l
  | ELam _ n i => ELam a n i
  | ELet _ n x y => ELet a n x y
  end.
(** assignment to these fields, as in src/nibble/convert.rs:229-242 and src/chomp/ast/substitute.rs:10-430 *)
Definition set_name (n : option name) (e : nexpr) : nexpr := set_ann (Ann n (e_span e)) e.
(** assignment to these fields, as in src/nibble/convert.rs:229-242 and src/chomp/ast/substitute.rs:10-430 *)
Definition set_span (s : span) (e : nexpr) : nexpr := set_ann (Ann (e_name e) s) e.

(** Induction principle (the generated one ignores the nested lists). *)
Section NexprInd.
  Variable P : nexpr -> Prop.
  Hypothesis Heps : forall a, P (EEps a).
  Hypothesis Hlit : forall a s, P (ELit a s).
  Hypothesis Hcat : forall a f r, P f -> Forall (fun x => P (snd x)) r -> P (ECat a f r).
  Hypothesis Halt : forall a f r, P f -> Forall (fun x => P (snd x)) r -> P (EAlt a f r).
  Hypothesis Hfix : forall a i, P i -> P (EFix a i).
  Hypothesis Hvar : forall a i, P (EVar a i).
  Hypothesis Hcall : forall a o l, P o -> Forall P l -> P (ECall a o l).
  Hypothesis Hlam : forall a n i, P i -> P (ELam a n i).
  Hypothesis Hlet : forall a n x y, P x -> P y -> P (ELet a n x y).

  Fixpoint nexpr_ind' (e : nexpr) : P e :=
    match e with
    | EEps a => Heps a
    | ELit a s => Hlit a s
    | ECat a f r =>
      Hcat a f r (nexpr_ind' f)
        ((fix go l : Forall (fun x => P (snd x)) l :=
            match l with
            | [] => Forall_nil _
            | x :: l' => Forall_cons _ (nexpr_ind' (snd x)) (go l')
            end) r)
    | EAlt a f r =>
      Halt a f r (nexpr_ind' f)
        ((fix go l : Forall (fun x => P (snd x)) l :=
            match l with
            | [] => Forall_nil _
            | x :: l' => Forall_cons _ (nexpr_ind' (snd x)) (go l')
            end) r)
    | EFix a i => Hfix a i (nexpr_ind' i)
    | EVar a i => Hvar a i
    | ECall a o l =>
      Hcall a o l (nexpr_ind' o)
        ((fix go l : Forall P l :=
            match l with
            | [] => Forall_nil _
            | x :: l' => Forall_cons _ (nexpr_ind' x) (go l')
            end) l)
    | ELam a n i => Hlam a n i (nexpr_ind' i)
    | ELet a n x y => Hlet a n x y (nexpr_ind' x) (nexpr_ind' y)
    end.
End NexprInd.
