(** * SpecRust: when the emitted items are a program, and which value stands
    for which parse tree.

    [well_formed] collects the rules of Rust that the emitted items could
    break: declarations, implementations, fields and variants are unique; what
    is mentioned is declared; what is used as [Parse], [Display] or
    [Into<char>] implements it; constructors are complete, matches exhaustive;
    types are finite. *)
From Verif Require Export Rust.
From Coq Require Import List Permutation Wellfounded.

Section Program.
  Variable p : program.

  Definition declared (s : rstr) : Prop := In s (map fst (items sel_type p)).
  (** Every name in a type is declared. *)
  Fixpoint ty_ok (t : tname) : Prop :=
    match t with
    | TnEpsilon => True
    | TnBox t' => ty_ok t'
    | TnIdent s => declared s
    end.

  (** A type that is an alias, after at most finitely many steps, of a type
      with an implementation in [impls]. *)
  Inductive implements (impls : list rstr) (eps box : Prop) : tname -> Prop :=
  | im_eps : eps -> implements impls eps box TnEpsilon
  | im_box t : box -> implements impls eps box t -> implements impls eps box (TnBox t)
  | im_impl s : In s impls -> implements impls eps box (TnIdent s)
  | im_alias s t : In (s, SAlias t) (items sel_type p) -> implements impls eps box t -> implements impls eps box (TnIdent s).
  Definition displays : tname -> Prop := implements (map fst (items sel_display p)) True True.
  Definition parses_as : tname -> Prop := implements (map fst (items sel_parse p)) True True.
  Definition into_char : tname -> Prop := implements (map fst (items sel_char p)) False False.

  Definition shape_types (sh : shape) : list tname :=
    match sh with
    | SUnit => []
    | STuple l => l
    | SFields l | SEnum l => map snd l
    | SAlias t => [t]
    end.
  Definition shape_names (sh : shape) : list rstr :=
    match sh with SFields l | SEnum l => map fst l | _ => [] end.
  (** [s'] is stored in [s] (or is what [s] abbreviates), not behind a box. *)
  Definition stored (s' s : rstr) : Prop :=
    exists sh, In (s, sh) (items sel_type p) /\ In (TnIdent s') (shape_types sh).

  (** The type of a member of a struct. *)
  Definition member_type (sh : shape) (m : member) : option tname :=
    match sh, m with
    | STuple l, MIndex k => nth_error l k
    | SFields l, MName f => map_get rstr_eqb f l
    | _, _ => None
    end.
  Definition is_alias (sh : shape) : Prop := match sh with SAlias _ => True | _ => False end.

  Definition display_fits (sh : shape) (b : fmt_body) : Prop :=
    match b with
    | FWrite _ => True
    | FMembers ms => forall m, In m ms -> exists t, member_type sh m = Some t /\ displays t
    | FMatch ks => exists vs, sh = SEnum vs /\ map fst vs = ks /\ forall t, In t (map snd vs) -> displays t
    end.
  Definition parse_fits (s : rstr) (sh : shape) (b : take_body) : Prop :=
    match b with
    | TConsume _ ret => ret = s /\ sh = SUnit
    | TLets xs i =>
      (forall x, In x xs -> exists t, infer_let sh i x = Some t /\ parses_as t)
      /\ match i, sh with
         | InFields l, SFields fs => Permutation (map fst l) (map fst fs) /\ (forall x, In x (map snd l) -> In x xs) /\ NoDup (map snd l)
         | InTuple l, STuple ts => length l = length ts /\ (forall x, In x l -> In x xs) /\ NoDup l
         | _, _ => False
         end
    | TMatch arms d => exists vs, sh = SEnum vs
      /\ (forall v, In v (map snd arms) \/ d = OrVariant v -> exists t, In (v, t) vs /\ parses_as t)
    end.
  Definition char_fits (sh : shape) (b : char_body) : Prop :=
    match b with
    | KConst _ => True
    | KMatch ks => exists vs, sh = SEnum vs /\ map fst vs = ks /\ forall t, In t (map snd vs) -> into_char t
    end.

  Record well_formed : Prop := WellFormed {
    wf_types : NoDup (map fst (items sel_type p));
    wf_displays : NoDup (map fst (items sel_display p));
    wf_parses : NoDup (map fst (items sel_parse p));
    wf_chars : NoDup (map fst (items sel_char p));
    wf_shapes : forall s sh, In (s, sh) (items sel_type p) -> NoDup (shape_names sh) /\ forall t, In t (shape_types sh) -> ty_ok t;
    wf_finite : well_founded stored;
    (** Every declared type can be parsed and printed; in particular, no alias
        abbreviates itself. *)
    wf_all : forall s, declared s -> parses_as (TnIdent s) /\ displays (TnIdent s);
    wf_display : forall s b, In (s, b) (items sel_display p) -> exists sh, In (s, sh) (items sel_type p) /\ ~ is_alias sh /\ display_fits sh b;
    wf_parse : forall s b, In (s, b) (items sel_parse p) -> exists sh, In (s, sh) (items sel_type p) /\ ~ is_alias sh /\ parse_fits s sh b;
    wf_char : forall s b, In (s, b) (items sel_char p) -> exists sh, In (s, sh) (items sel_type p) /\ ~ is_alias sh /\ char_fits sh b;
    (** [trait Parse: Display + Sized] *)
    wf_super : forall s, In s (map fst (items sel_parse p)) -> In s (map fst (items sel_display p))
  }.
End Program.

(** The result of [T::parse_str(s)], given enough steps. *)
Definition rparses (p : program) (t : tname) (s : rstr) (x : res rval parse_error) : Prop :=
  x <> OutOfFuel /\ exists fuel, forall fuel', fuel <= fuel' -> rparse_str p fuel' t s = x.

(** The value of a generated type that stands for a parse tree. *)
Inductive denotes (d : table) : nat -> tree -> rval -> Prop :=
| dn_eps i : def_of d i = Some DEps -> denotes d i NEps VEps
| dn_lit i s c : def_of d i = Some (DLit s c) -> denotes d i (NLit s) (VStruct (ident_of (name_of d i)) [])
| dn_cat i named parts ids ts vs : def_of d i = Some (DCat named parts ids) -> denotes_all d ids ts vs ->
    denotes d i (NCat ts) (VStruct (ident_of (name_of d i)) (combine (if named then map MName parts else indexes (length ids)) vs))
| dn_alt i parts ids a b c k j v t x : def_of d i = Some (DAlt parts ids a b c v) -> nth_error ids k = Some j -> denotes d j t x ->
    denotes d i (NAlt k t) (VVariant (ident_of (name_of d i)) (nth k parts []) x)
| dn_fix i j t x : def_of d i = Some (DFix (Some j)) -> denotes d j t x -> denotes d i t x
| dn_box i f t x : def_of d i = Some (DBox f) -> denotes d f t x -> denotes d i (NBox t) (VBox x)
with denotes_all (d : table) : list nat -> list tree -> list rval -> Prop :=
| dn_nil : denotes_all d [] [] []
| dn_cons i ids t ts x xs : denotes d i t x -> denotes_all d ids ts xs -> denotes_all d (i :: ids) (t :: ts) (x :: xs).
Scheme denotes_mut := Minimality for denotes Sort Prop
with denotes_all_mut := Minimality for denotes_all Sort Prop.
Combined Scheme denotes_mutind from denotes_mut, denotes_all_mut.
