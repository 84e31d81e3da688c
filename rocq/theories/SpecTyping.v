(** * SpecTyping: the typing rules of typed, algebraic grammars, declaratively.
    Independent of the inference algorithm: types are predicates, and the rule
    for fixed points may use any type that the body reproduces. *)
From Verif Require Export SpecLang.

(** What is promised about a language: may it contain the empty word, which
    characters may start a word, which characters may follow a non-empty word
    inside a longer word. *)
Record stype := ST { s_null : Prop; s_first : char -> Prop; s_flast : char -> Prop }.

Definition st_le (a b : stype) : Prop :=
  (s_null a -> s_null b)
  /\ (forall c, s_first a c -> s_first b c)
  /\ (forall c, s_flast a c -> s_flast b c).
Definition st_eq (a b : stype) : Prop := st_le a b /\ st_le b a.

(** A type describes a language. *)
Definition describes (t : stype) (L : lang) : Prop :=
  (L [] -> s_null t)
  /\ (forall c w, L (c :: w) -> s_first t c)
  /\ (forall u c v, u <> [] -> L u -> L (u ++ c :: v) -> s_flast t c).

Definition st_eps : stype := ST True (fun _ => False) (fun _ => False).
Definition st_lit (s : rstr) : stype :=
  ST (s = []) (fun c => exists w, s = c :: w) (fun _ => False).
Definition st_cat (a b : stype) : stype :=
  ST (s_null a /\ s_null b)
     (fun c => s_first a c \/ (s_null a /\ s_first b c))
     (fun c => s_flast b c \/ (s_null b /\ (s_first b c \/ s_flast a c))).
Definition st_alt (a b : stype) : stype :=
  ST (s_null a \/ s_null b)
     (fun c => s_first a c \/ s_first b c)
     (fun c => s_flast a c \/ s_flast b c).

(** When a word of [a] followed by a word of [b] splits in one way only. *)
Definition separable (a b : stype) : Prop :=
  ~ s_null a /\ (forall c, s_flast a c -> s_first b c -> False).
(** When a word cannot be both in [a] and in [b]. *)
Definition apart (a b : stype) : Prop :=
  ~ (s_null a /\ s_null b) /\ (forall c, s_first a c -> s_first b c -> False).

(** Typing environments: for each variable its type, and whether it may be
    used (something has necessarily been consumed since its binder). *)
Definition tenv := list (bool * stype).
Definition unguard (G : tenv) : tenv := map (fun x => (true, snd x)) G.

Inductive typed : tenv -> gram -> stype -> Prop :=
| typed_eps G : typed G GEps st_eps
| typed_lit G s : typed G (GLit s) (st_lit s)
| typed_var G i t : nth_error G i = Some (true, t) -> typed G (GVar i) t
| typed_cat G g gs t1 t :
    typed G g t1 -> ~ s_null t1 -> typed_seq (unguard G) t1 gs t -> typed G (GCat (g :: gs)) t
| typed_alt G g gs t1 t :
    typed G g t1 -> typed_branches G t1 gs t -> typed G (GAlt (g :: gs)) t
| typed_fix G g t t' :
    typed ((false, t) :: G) g t' -> st_eq t' t -> typed G (GFix g) t
(** [typed_seq G front gs t]: the terms [gs] can follow a front of type
    [front], the whole having type [t]. *)
with typed_seq : tenv -> stype -> list gram -> stype -> Prop :=
| typed_seq_nil G t : typed_seq G t [] t
| typed_seq_cons G t g gs t1 t' :
    typed G g t1 -> separable t t1 -> typed_seq G (st_cat t t1) gs t' -> typed_seq G t (g :: gs) t'
with typed_branches : tenv -> stype -> list gram -> stype -> Prop :=
| typed_branches_nil G t : typed_branches G t [] t
| typed_branches_cons G t g gs t1 t' :
    typed G g t1 -> apart t t1 -> typed_branches G (st_alt t t1) gs t' -> typed_branches G t (g :: gs) t'.

Scheme typed_mind := Induction for typed Sort Prop
with typed_seq_mind := Induction for typed_seq Sort Prop
with typed_branches_mind := Induction for typed_branches Sort Prop.
Combined Scheme typed_mutind from typed_mind, typed_seq_mind, typed_branches_mind.
