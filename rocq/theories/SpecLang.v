(** * SpecLang: what a grammar means.  Independent of the code: context-free
    expressions with least fixed points, their languages and parse trees. *)
From Verif Require Export Base.

(** Grammars: the call-free, let-free expressions.  [GFix g] binds variable 0
    of [g] (de Bruijn indices). *)
Inductive gram : Type :=
| GEps
| GLit (s : rstr)
| GCat (gs : list gram)
| GAlt (gs : list gram)
| GFix (g : gram)
| GVar (i : nat).

Definition lang := rstr -> Prop.
Definition lang_empty : lang := fun _ => False.
(** One language after another. *)
Definition lang_cat (L M : lang) : lang := fun w => exists u v, w = u ++ v /\ L u /\ M v.

(** [lang_of env g w]: the word [w] is in the language of [g], where [env]
    gives the languages of the free variables.  A fixed point is the union of
    its finite unfoldings; [LangFacts.lang_fix_least] proves that this is the
    least language closed under the body. *)
Fixpoint lang_of (env : list lang) (g : gram) {struct g} : lang :=
  match g with
  | GEps => fun w => w = []
  | GLit s => fun w => w = s
  | GCat gs =>
    (fix cat l : lang :=
       match l with
       | [] => fun w => w = []
       | g :: l' => lang_cat (lang_of env g) (cat l')
       end) gs
  | GAlt gs =>
    (fix alt l : lang :=
       match l with
       | [] => lang_empty
       | g :: l' => fun w => lang_of env g w \/ alt l' w
       end) gs
  | GFix g => fun w => exists n, Nat.iter n (fun X : lang => lang_of (X :: env) g) lang_empty w
  | GVar i => nth i env lang_empty
  end.

(** Parse trees: what a value of a generated type records.  [NAlt i t] is the
    [i]-th branch; [NBox t] is the box in which a use of a fixed-point variable
    is stored. *)
Inductive tree : Type :=
| NEps
| NLit (s : rstr)
| NCat (ts : list tree)
| NAlt (i : nat) (t : tree)
| NBox (t : tree).

(** The text of a tree. *)
Fixpoint yield (t : tree) : rstr :=
  match t with
  | NEps => []
  | NLit s => s
  | NCat ts => flat_map yield ts
  | NAlt _ t => yield t
  | NBox t => yield t
  end.

Definition treeset := tree -> Prop.
Definition treeset_empty : treeset := fun _ => False.

(** [trees_of env g t]: [t] is a parse tree of [g]. *)
Fixpoint trees_of (env : list treeset) (g : gram) {struct g} : treeset :=
  match g with
  | GEps => fun t => t = NEps
  | GLit s => fun t => t = NLit s
  | GCat gs =>
    let cat := (fix cat l : list tree -> Prop :=
       match l with
       | [] => fun ts => ts = []
       | g :: l' => fun ts => exists t ts', ts = t :: ts' /\ trees_of env g t /\ cat l' ts'
       end) in
    fun t => exists ts, t = NCat ts /\ cat gs ts
  | GAlt gs =>
    (fix alt (k : nat) l : treeset :=
       match l with
       | [] => treeset_empty
       | g :: l' => fun t => (exists t', t = NAlt k t' /\ trees_of env g t') \/ alt (S k) l' t
       end) 0 gs
  | GFix g => fun t => exists n, Nat.iter n (fun X : treeset => trees_of (X :: env) g) treeset_empty t
  | GVar i => fun t => exists t', t = NBox t' /\ nth i env treeset_empty t'
  end.

(** The language and the trees of a closed grammar. *)
Definition language (g : gram) : lang := lang_of [] g.
Definition parse_tree (g : gram) : treeset := trees_of [] g.
