(** * EraseBeta: the lambda expression denoted by an expression of the model:
    names and spans are dropped. *)
From Verif Require Export Reduce SpecBeta.

Fixpoint erase (e : nexpr) : lexpr :=
  match e with
  | EEps _ => LEps
  | ELit _ s => LLit s
  | ECat _ f r => LCat (erase f :: map (fun x => erase (snd x)) r)
  | EAlt _ f r => LAlt (erase f :: map (fun x => erase (snd x)) r)
  | EFix _ i => LFix (erase i)
  | EVar _ i => LVar i
  | ECall _ o l => LCall (erase o) (map erase l)
  | ELam _ ns i => LLam (length ns) (erase i)
  | ELet _ _ x y => LLet (erase x) (erase y)
  end.

(** The failure an error value of [Reduce] reports. *)
Definition failure_of (x : red_error) : failure :=
  match x with
  | CallNotAFunction on _ => NotAFunction (erase on)
  | WrongArgCount l args _ =>
    match erase l with
    | LLam n b => WrongArity n b (map erase args)
    | v => NotAFunction v
    end
  end.

(** The position an error value carries. *)
Definition err_span (x : red_error) : span := match x with CallNotAFunction _ sp | WrongArgCount _ _ sp => sp end.
(** The positions of the calls of a program. *)
Fixpoint call_spans (e : nexpr) : list span :=
  match e with
  | EEps _ | ELit _ _ | EVar _ _ => []
  | ECat _ f r | EAlt _ f r => call_spans f ++ flat_map (fun x => call_spans (snd x)) r
  | EFix _ i | ELam _ _ i => call_spans i
  | ECall a o l => a_span a :: call_spans o ++ flat_map call_spans l
  | ELet _ _ x y => call_spans x ++ call_spans y
  end.
