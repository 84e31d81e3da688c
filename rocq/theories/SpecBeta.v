(** * SpecBeta: functions, calls and lets, independently of the code.
    A textbook lambda calculus with n-ary functions: expressions without names
    and spans, renaming and simultaneous substitution on de Bruijn indices,
    beta reduction in any order, and evaluation. *)
From Verif Require Export SpecLang.

Inductive lexpr : Type :=
| LEps
| LLit (s : rstr)
| LCat (l : list lexpr)
| LAlt (l : list lexpr)
| LFix (e : lexpr)
| LVar (i : nat)
| LCall (f : lexpr) (args : list lexpr)
| LLam (n : nat) (e : lexpr)          (* a function of n parameters; the last one is variable 0 *)
| LLet (x body : lexpr).

(** ** Renaming and substitution *)
Definition upr (n : nat) (r : nat -> nat) (i : nat) : nat := if Nat.ltb i n then i else n + r (i - n).
Fixpoint lren (r : nat -> nat) (e : lexpr) : lexpr :=
  match e with
  | LEps => LEps
  | LLit s => LLit s
  | LCat l => LCat (map (lren r) l)
  | LAlt l => LAlt (map (lren r) l)
  | LFix e => LFix (lren r e)
  | LVar i => LVar (r i)
  | LCall f l => LCall (lren r f) (map (lren r) l)
  | LLam n e => LLam n (lren (upr n r) e)
  | LLet x b => LLet (lren r x) (lren (upr 1 r) b)
  end.
(** Under [n] binders. *)
Definition ups (n : nat) (s : nat -> lexpr) (i : nat) : lexpr :=
  if Nat.ltb i n then LVar i else lren (Nat.add n) (s (i - n)).
(** Simultaneous, capture-avoiding substitution. *)
Fixpoint lsub (s : nat -> lexpr) (e : lexpr) : lexpr :=
  match e with
  | LEps => LEps
  | LLit w => LLit w
  | LCat l => LCat (map (lsub s) l)
  | LAlt l => LAlt (map (lsub s) l)
  | LFix e => LFix (lsub s e)
  | LVar i => s i
  | LCall f l => LCall (lsub s f) (map (lsub s) l)
  | LLam n e => LLam n (lsub (ups n s) e)
  | LLet x b => LLet (lsub s x) (lsub (ups 1 s) b)
  end.
(** Replace variable [k]; the variables above it move down. *)
Definition at_var (k : nat) (x : lexpr) (i : nat) : lexpr :=
  match Nat.compare i k with Lt => LVar i | Eq => x | Gt => LVar (i - 1) end.
(** Replace the parameters of a function by arguments, all at once. *)
Definition inst (args : list lexpr) (i : nat) : lexpr :=
  match nth_error (rev args) i with Some x => x | None => LVar (i - length args) end.

(** ** Beta reduction, anywhere *)
Inductive step : lexpr -> lexpr -> Prop :=
| step_beta n b args : length args = n -> step (LCall (LLam n b) args) (lsub (inst args) b)
| step_let x b : step (LLet x b) (lsub (inst [x]) b)
| step_cat l x y l' : step x y -> step (LCat (l ++ x :: l')) (LCat (l ++ y :: l'))
| step_alt l x y l' : step x y -> step (LAlt (l ++ x :: l')) (LAlt (l ++ y :: l'))
| step_fix x y : step x y -> step (LFix x) (LFix y)
| step_fun f g args : step f g -> step (LCall f args) (LCall g args)
| step_arg f l x y l' : step x y -> step (LCall f (l ++ x :: l')) (LCall f (l ++ y :: l'))
| step_lam n x y : step x y -> step (LLam n x) (LLam n y)
| step_bound x y b : step x y -> step (LLet x b) (LLet y b)
| step_body x b c : step b c -> step (LLet x b) (LLet x c).
Inductive steps : lexpr -> lexpr -> Prop :=
| steps_refl x : steps x x
| steps_step x y z : step x y -> steps y z -> steps x z.

(** ** Evaluation: functions are not evaluated inside, except the one under a
    fixed point; arguments are substituted unevaluated. *)
Definition is_lam (e : lexpr) : bool := match e with LLam _ _ => true | _ => false end.
Inductive evals : lexpr -> lexpr -> Prop :=
| ev_eps : evals LEps LEps
| ev_lit s : evals (LLit s) (LLit s)
| ev_var i : evals (LVar i) (LVar i)
| ev_lam n b : evals (LLam n b) (LLam n b)
| ev_cat l l' : evals_list l l' -> evals (LCat l) (LCat l')
| ev_alt l l' : evals_list l l' -> evals (LAlt l) (LAlt l')
| ev_fix e n b b' : evals e (LLam n b) -> evals b b' -> evals (LFix e) (LFix (LLam n b'))
| ev_fix_other e v : evals e v -> is_lam v = false -> evals (LFix e) (LFix v)
| ev_call f n b args v : evals f (LLam n b) -> length args = n -> evals (lsub (inst args) b) v -> evals (LCall f args) v
| ev_let x b v : evals (lsub (inst [x]) b) v -> evals (LLet x b) v
with evals_list : list lexpr -> list lexpr -> Prop :=
| evs_nil : evals_list [] []
| evs_cons x v l l' : evals x v -> evals_list l l' -> evals_list (x :: l) (v :: l').

(** Evaluation meets a call that cannot be made: its function part evaluates
    to something else than a function, or to one with another number of
    parameters.  Parts are evaluated from left to right. *)
Inductive failure :=
| NotAFunction (v : lexpr)                                (* the value that is called *)
| WrongArity (n : nat) (b : lexpr) (args : list lexpr).   (* the function, and the arguments *)
Inductive fails : lexpr -> failure -> Prop :=
| fails_not_function f v args : evals f v -> is_lam v = false -> fails (LCall f args) (NotAFunction v)
| fails_arity f n b args : evals f (LLam n b) -> length args <> n -> fails (LCall f args) (WrongArity n b args)
| fails_fun f args x : fails f x -> fails (LCall f args) x
| fails_body f n b args x :
    evals f (LLam n b) -> length args = n -> fails (lsub (inst args) b) x -> fails (LCall f args) x
| fails_let d b x : fails (lsub (inst [d]) b) x -> fails (LLet d b) x
| fails_cat l l' e r x : evals_list l l' -> fails e x -> fails (LCat (l ++ e :: r)) x
| fails_alt l l' e r x : evals_list l l' -> fails e x -> fails (LAlt (l ++ e :: r)) x
| fails_fix e x : fails e x -> fails (LFix e) x
| fails_fix_body e n b x : evals e (LLam n b) -> fails b x -> fails (LFix e) x.

(** ** Scoping *)
Fixpoint scoped (n : nat) (e : lexpr) {struct e} : Prop :=
  match e with
  | LEps | LLit _ => True
  | LVar i => i < n
  | LCat l | LAlt l => (fix go l := match l with [] => True | x :: l' => scoped n x /\ go l' end) l
  | LFix e => scoped n e
  | LCall f l => scoped n f /\ (fix go l := match l with [] => True | x :: l' => scoped n x /\ go l' end) l
  | LLam k e => scoped (k + n) e
  | LLet x b => scoped n x /\ scoped (S n) b
  end.

(** ** What evaluation leaves *)
(** No call and no let, except inside functions that are not directly under a
    fixed point. *)
Fixpoint evaluated (e : lexpr) : Prop :=
  match e with
  | LEps | LLit _ | LVar _ | LLam _ _ => True
  | LCat l | LAlt l => (fix go l := match l with [] => True | x :: l' => evaluated x /\ go l' end) l
  | LFix e => evaluated e /\ match e with LLam _ b => evaluated b | _ => True end
  | LCall _ _ | LLet _ _ => False
  end.

(** ** Grammars: no call, no let, functions exactly under fixed points *)
Definition each {A B} (f : A -> option B) : list A -> option (list B) :=
  fix go l :=
  match l with
  | [] => Some []
  | x :: l' => match f x, go l' with Some y, Some m => Some (y :: m) | _, _ => None end
  end.
Fixpoint lgram (e : lexpr) : option gram :=
  match e with
  | LEps => Some GEps
  | LLit s => Some (GLit s)
  | LVar i => Some (GVar i)
  | LCat l => option_map GCat (each lgram l)
  | LAlt l => option_map GAlt (each lgram l)
  | LFix (LLam _ b) => option_map GFix (lgram b)
  | _ => None
  end.
