(** * SpecGuard: left recursion, productivity and shape, independently of types. *)
From Verif Require Export SpecLang.

(** [exposes env g i]: the body [g] can reach its variable [i] before
    consuming anything. *)
Fixpoint exposes (env : list lang) (g : gram) (i : nat) {struct g} : Prop :=
  match g with
  | GEps | GLit _ => False
  | GVar j => i = j
  | GCat gs =>
    (fix go l := match l with
                 | [] => False
                 | g :: l' => exposes env g i \/ (lang_of env g [] /\ go l')
                 end) gs
  | GAlt gs =>
    (fix go l := match l with [] => False | g :: l' => exposes env g i \/ go l' end) gs
  | GFix g' => exposes (lang_of env (GFix g') :: env) g' (S i)
  end.

(** Some fixed point of the grammar can reach its own variable before
    consuming anything. *)
Fixpoint left_recursive (env : list lang) (g : gram) {struct g} : Prop :=
  match g with
  | GEps | GLit _ | GVar _ => False
  | GCat gs | GAlt gs =>
    (fix go l := match l with [] => False | g :: l' => left_recursive env g \/ go l' end) gs
  | GFix g' =>
    exposes (lang_of env (GFix g') :: env) g' 0 \/ left_recursive (lang_of env (GFix g') :: env) g'
  end.

(** Every sub-grammar has a word. *)
Fixpoint productive (env : list lang) (g : gram) {struct g} : Prop :=
  (exists w, lang_of env g w) /\
  match g with
  | GEps | GLit _ | GVar _ => True
  | GCat gs | GAlt gs =>
    (fix go l := match l with [] => True | g :: l' => productive env g /\ go l' end) gs
  | GFix g' => productive (lang_of env (GFix g') :: env) g'
  end.

(** All variables are bound ([n] of them by the surroundings). *)
Fixpoint closed_below (n : nat) (g : gram) {struct g} : Prop :=
  match g with
  | GEps | GLit _ => True
  | GVar i => i < n
  | GCat gs | GAlt gs =>
    (fix go l := match l with [] => True | g :: l' => closed_below n g /\ go l' end) gs
  | GFix g' => closed_below (S n) g'
  end.
