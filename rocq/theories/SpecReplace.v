(** * SpecReplace: replacing parts of a program.
    Independent of the type checker. *)
From Verif Require Export Ast.

(** [replaced R e e']: [e'] is [e] with some of its parts [x] exchanged for
    parts [y] with [R x y], at any depth, any number of times.  Names and
    positions may also change. *)
Inductive replaced (R : nexpr -> nexpr -> Prop) : nexpr -> nexpr -> Prop :=
| rep_here x y : R x y -> replaced R x y
| rep_same e : replaced R e e
| rep_cat a a' f f' r r' : replaced R f f' -> replaced_rest R r r' -> replaced R (ECat a f r) (ECat a' f' r')
| rep_alt a a' f f' r r' : replaced R f f' -> replaced_rest R r r' -> replaced R (EAlt a f r) (EAlt a' f' r')
| rep_fix a a' b b' ns ns' i i' : replaced R i i' -> replaced R (EFix a (ELam b ns i)) (EFix a' (ELam b' ns' i'))
with replaced_rest (R : nexpr -> nexpr -> Prop) : list (span * nexpr) -> list (span * nexpr) -> Prop :=
| rep_nil : replaced_rest R [] []
| rep_cons p p' e e' l l' : replaced R e e' -> replaced_rest R l l' -> replaced_rest R ((p, e) :: l) ((p', e') :: l').

Scheme replaced_mind := Induction for replaced Sort Prop
with replaced_rest_mind := Induction for replaced_rest Sort Prop.
Combined Scheme replaced_mutind from replaced_mind, replaced_rest_mind.
