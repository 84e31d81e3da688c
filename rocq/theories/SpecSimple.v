(** * SpecSimple: simple types for functions, calls and lets. *)
From Verif Require Export SpecBeta.

Inductive sty := SGram | SFun (params : list sty) (result : sty).

(** [has_sty G e A]: where variable [i] has the type at position [i] of [G],
    [e] has type [A]. *)
Inductive has_sty : list sty -> lexpr -> sty -> Prop :=
| sty_eps G : has_sty G LEps SGram
| sty_lit G s : has_sty G (LLit s) SGram
| sty_cat G l : have_sty G l (map (fun _ => SGram) l) -> has_sty G (LCat l) SGram
| sty_alt G l : have_sty G l (map (fun _ => SGram) l) -> has_sty G (LAlt l) SGram
| sty_fix G f : has_sty G f (SFun [SGram] SGram) -> has_sty G (LFix f) SGram
| sty_var G i A : nth_error G i = Some A -> has_sty G (LVar i) A
| sty_call G f ps A args : has_sty G f (SFun ps A) -> have_sty G args ps -> has_sty G (LCall f args) A
| sty_lam G ps b A : has_sty (rev ps ++ G) b A -> has_sty G (LLam (length ps) b) (SFun ps A)
| sty_let G x A b B : has_sty G x A -> has_sty (A :: G) b B -> has_sty G (LLet x b) B
with have_sty : list sty -> list lexpr -> list sty -> Prop :=
| tys_nil G : have_sty G [] []
| tys_cons G e A l As : has_sty G e A -> have_sty G l As -> have_sty G (e :: l) (A :: As).
