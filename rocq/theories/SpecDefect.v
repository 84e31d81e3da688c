(** * SpecDefect: what can be wrong with a grammar, in terms of languages; and
    what a type error says is wrong. *)
From Verif Require Export SpecGuard SpecKeep Erase.

(** The variables in scope: whether something stands before the current place
    in a concatenation inside the binder, and the language. *)
Definition scope := list (bool * lang).
Definition langs (r : scope) : list lang := map snd r.
Definition behind (r : scope) : scope := map (fun x => (true, snd x)) r.
Definition enter (g : gram) (r : scope) : scope := (false, lang_of (langs r) (GFix g)) :: r.

(** ** Defects of a grammar *)
Inductive defect : scope -> gram -> Prop :=
(** a variable that nothing binds *)
| defect_free r i : length r <= i -> defect r (GVar i)
(** a variable that is reached before anything else *)
| defect_exposed r i L : nth_error r i = Some (false, L) -> defect r (GVar i)
(** a concatenation whose first part has the empty word *)
| defect_nullable r g gs : lang_of (langs r) g [] -> defect r (GCat (g :: gs))
(** a front that may end before a character or go on with it, and the next
    part may start with it *)
| defect_end r gs h rest u c v w : gs <> [] ->
    lang_of (langs r) (GCat gs) u -> lang_of (langs r) (GCat gs) (u ++ c :: v) -> lang_of (langs r) h (c :: w) ->
    defect r (GCat (gs ++ h :: rest))
(** two alternatives with the empty word *)
| defect_both r l g m h n : lang_of (langs r) g [] -> lang_of (langs r) h [] -> defect r (GAlt (l ++ g :: m ++ h :: n))
(** two alternatives with words that start alike *)
| defect_start r l g m h n c v w : lang_of (langs r) g (c :: v) -> lang_of (langs r) h (c :: w) -> defect r (GAlt (l ++ g :: m ++ h :: n))
(** a defect inside *)
| defect_in_first r g gs : defect r g -> defect r (GCat (g :: gs))
| defect_in_rest r g gs h : In h gs -> defect (behind r) h -> defect r (GCat (g :: gs))
| defect_in_alt r gs h : In h gs -> defect r h -> defect r (GAlt gs)
| defect_in_fix r g : defect (enter g r) g -> defect r (GFix g).

(** ** What a type error says *)
Definition grams (l : list nexpr) : option (list gram) := all_some (map gram_of l).
(** [explains nm r e x]: the error [x] is true of [e], whose name is [nm]: it
    names a part of [e] or a separator in [e], and what it says holds there. *)
Inductive explains : option name -> scope -> nexpr -> type_error -> Prop :=
| explains_free nm r a i : length r <= i -> explains nm r (EVar a i) (VariableError FreeVariable i (a_span a) nm)
| explains_exposed nm r a i L : nth_error r i = Some (false, L) -> explains nm r (EVar a i) (VariableError GuardedVariable i (a_span a) nm)
| explains_nullable nm r a f rest g t : gram_of f = Some g -> lang_of (langs r) g [] -> keeps (e_name f) f t -> nullable (get_type t) = true ->
    explains nm r (ECat a f rest) (FirstNullable t (match rest with [] => call_site | (p, _) :: _ => p end))
| explains_end nm r a f l p e m gs h ty t u c v w : grams (f :: map snd l) = Some gs -> gram_of e = Some h -> keeps (e_name e) e t ->
    In c (flast_set ty) -> In c (first_set (get_type t)) ->
    lang_of (langs r) (GCat gs) u -> lang_of (langs r) (GCat gs) (u ++ c :: v) -> lang_of (langs r) h (c :: w) ->
    explains nm r (ECat a f (l ++ (p, e) :: m)) (FirstFlastOverlap ty p t)
| explains_both nm r a f l p e m gs h ty t : grams (f :: map snd l) = Some gs -> gram_of e = Some h -> keeps (e_name e) e t ->
    nullable ty = true -> nullable (get_type t) = true ->
    lang_of (langs r) (GAlt gs) [] -> lang_of (langs r) h [] ->
    explains nm r (EAlt a f (l ++ (p, e) :: m)) (BothNullable ty p t)
| explains_start nm r a f l p e m gs h ty t c v w : grams (f :: map snd l) = Some gs -> gram_of e = Some h -> keeps (e_name e) e t ->
    In c (first_set ty) -> In c (first_set (get_type t)) ->
    lang_of (langs r) (GAlt gs) (c :: v) -> lang_of (langs r) h (c :: w) ->
    explains nm r (EAlt a f (l ++ (p, e) :: m)) (FirstOverlap ty p t)
| explains_in_first nm r a f rest x : explains (e_name f) r f x -> explains nm r (ECat a f rest) x
| explains_in_rest nm r a f rest p e x : In (p, e) rest -> explains (e_name e) (behind r) e x -> explains nm r (ECat a f rest) x
| explains_in_alt_first nm r a f rest x : explains (e_name f) r f x -> explains nm r (EAlt a f rest) x
| explains_in_alt nm r a f rest p e x : In (p, e) rest -> explains (e_name e) r e x -> explains nm r (EAlt a f rest) x
| explains_in_fix nm r a ai ns b g x : gram_of b = Some g -> explains (merge_all [a_name ai; e_name b; nm]) (enter g r) b x ->
    explains nm r (EFix a (ELam ai ns b)) x.

(** The errors about sets of characters. *)
Definition about_sets (x : type_error) : Prop := match x with FirstFlastOverlap _ _ _ | FirstOverlap _ _ _ => True | _ => False end.

(** ** Where an error is, for any expression *)
(** [part d e]: [d] is a part of [e]; the arguments and bodies of calls,
    lets and lambdas count. *)
Inductive part (d : nexpr) : nexpr -> Prop :=
| part_self : part d d
| part_cat_first a f l : part d f -> part d (ECat a f l)
| part_cat_rest a f l p e : In (p, e) l -> part d e -> part d (ECat a f l)
| part_alt_first a f l : part d f -> part d (EAlt a f l)
| part_alt_rest a f l p e : In (p, e) l -> part d e -> part d (EAlt a f l)
| part_fix a i : part d i -> part d (EFix a i)
| part_lam a ns b : part d b -> part d (ELam a ns b)
| part_call_on a f l : part d f -> part d (ECall a f l)
| part_call_arg a f l e : In e l -> part d e -> part d (ECall a f l)
| part_let_bound a n b e : part d b -> part d (ELet a n b e)
| part_let_body a n b e : part d e -> part d (ELet a n b e).

(** The error is about a part of [e] of the right kind, at its place. *)
Definition located (e : nexpr) (x : type_error) : Prop :=
  match x with
  | FirstNullable t p => exists a f l, part (ECat a f l) e /\ keeps (e_name f) f t
      /\ p = match l with [] => call_site | (q, _) :: _ => q end
  | FirstFlastOverlap _ p t => exists a f l d, part (ECat a f l) e /\ In (p, d) l /\ keeps (e_name d) d t
  | BothNullable _ p t | FirstOverlap _ p t => exists a f l d, part (EAlt a f l) e /\ In (p, d) l /\ keeps (e_name d) d t
  | VariableError _ i s _ => exists a, part (EVar a i) e /\ s = a_span a
  | UnexpectedCall s c => exists a f l, c = ECall a f l /\ part c e /\ s = a_span a
  | UnexpectedLambda s c => exists a ns b, c = ELam a ns b /\ part c e /\ s = a_span a
  | UnexpectedLet s c => exists a n b d, c = ELet a n b d /\ part c e /\ s = a_span a
  | ExpectedLambda s i => exists a, part (EFix a i) e /\ s = a_span a /\ forall a' ns b, i <> ELam a' ns b
  end.
