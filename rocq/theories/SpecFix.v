(** * SpecFix: one variable for each fixed point. *)
From Verif Require Export SpecBeta.

(** Every function directly under a fixed point has one parameter. *)
Fixpoint single (e : lexpr) : Prop :=
  match e with
  | LEps | LLit _ | LVar _ => True
  | LCat l | LAlt l => (fix go l := match l with [] => True | x :: l' => single x /\ go l' end) l
  | LFix f => single f /\ match f with LLam n _ => n = 1 | _ => True end
  | LCall f l => single f /\ (fix go l := match l with [] => True | x :: l' => single x /\ go l' end) l
  | LLam _ b => single b
  | LLet x b => single x /\ single b
  end.
Definition same_lang (L M : lang) : Prop := forall w, L w <-> M w.
