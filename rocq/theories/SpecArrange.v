(** * SpecArrange: writing the same grammar in another order or with other
    parentheses. *)
From Verif Require Export SpecLang.
From Coq Require Export Permutation.
From Coq Require Import List.

(** [rearranged g g']: [g'] comes from [g] by changing the order of alternatives,
    by adding or removing parentheses around alternatives, or around the front of
    a sequence, at any places, any number of times. *)
Inductive rearranged : gram -> gram -> Prop :=
| re_order gs gs' : Permutation gs gs' -> rearranged (GAlt gs) (GAlt gs')
| re_group_alt l m n : m <> [] -> rearranged (GAlt (l ++ GAlt m :: n)) (GAlt (l ++ m ++ n))
| re_group_front m n : m <> [] -> rearranged (GCat (GCat m :: n)) (GCat (m ++ n))
| re_refl g : rearranged g g
| re_sym g g' : rearranged g g' -> rearranged g' g
| re_trans g g' g'' : rearranged g g' -> rearranged g' g'' -> rearranged g g''
| re_in_alt l g g' n : rearranged g g' -> rearranged (GAlt (l ++ g :: n)) (GAlt (l ++ g' :: n))
| re_in_cat l g g' n : rearranged g g' -> rearranged (GCat (l ++ g :: n)) (GCat (l ++ g' :: n))
| re_in_fix g g' : rearranged g g' -> rearranged (GFix g) (GFix g').
(** [loosened g g']: parentheses around other parts of sequences may be removed
    too, and what follows alternatives may be written after each. *)
Inductive loosened : gram -> gram -> Prop :=
| lo_same g g' : rearranged g g' -> loosened g g'
| lo_group l m n : m <> [] -> loosened (GCat (l ++ GCat m :: n)) (GCat (l ++ m ++ n))
| lo_spread m n : m <> [] -> loosened (GCat (GAlt m :: n)) (GAlt (map (fun g => GCat (g :: n)) m))
| lo_trans g g' g'' : loosened g g' -> loosened g' g'' -> loosened g g''
| lo_in_alt l g g' n : loosened g g' -> loosened (GAlt (l ++ g :: n)) (GAlt (l ++ g' :: n))
| lo_in_cat l g g' n : loosened g g' -> loosened (GCat (l ++ g :: n)) (GCat (l ++ g' :: n))
| lo_in_fix g g' : loosened g g' -> loosened (GFix g) (GFix g').
