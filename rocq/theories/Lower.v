(** * Lower: the code generator, src/lower/mod.rs and src/chomp/typed/lower.rs.

    The tokens generated for a type are modelled by a [def]: the data spliced
    into the [quote!] templates.  [GenSem] gives the meaning of the generated
    [Parse], [Display] and [From] implementations.

    Simplifications: a [HashMap] is an association list (newest first) searched
    with the key's [PartialEq]; spans of generated tokens and doc comments are
    dropped; [usize] is [nat]. *)
From Verif Require Export Infer.
From Coq Require Import String.
From Coq Require Import List.

(** ** Pieces of the standard library *)

(** Decimal digits of a number, as [format_ident!] prints a [usize]. *)
(** std formatting of a [usize], used by [format_ident!] in src/lower/mod.rs:50, 55 *)
Fixpoint uint_chars (d : Decimal.uint) : rstr :=
  match d with
  | Decimal.Nil => []
  | Decimal.D0 d => 48%N :: uint_chars d
  | Decimal.D1 d => 49%N :: uint_chars d
  | Decimal.D2 d => 50%N :: uint_chars d
  | Decimal.D3 d => 51%N :: uint_chars d
  | Decimal.D4 d => 52%N :: uint_chars d
  | Decimal.D5 d => 53%N :: uint_chars d
  | Decimal.D6 d => 54%N :: uint_chars d
  | Decimal.D7 d => 55%N :: uint_chars d
  | Decimal.D8 d => 56%N :: uint_chars d
  | Decimal.D9 d => 57%N :: uint_chars d
  end.
(** std formatting of a [usize], used by [format_ident!] in src/lower/mod.rs:50, 55 *)
Definition dec (n : nat) : rstr := uint_chars (Nat.to_uint n).

(** [BTreeSet<usize>] *)
(** std [BTreeSet<usize>], src/lower/mod.rs:25, 39 *)
Fixpoint nset_insert (n : nat) (s : list nat) : list nat :=
  match s with
  | [] => [n]
  | m :: s' =>
    match Nat.compare n m with
    | Lt => n :: m :: s'
    | Eq => m :: s'
    | Gt => m :: nset_insert n s'
    end
  end.
(** [into_iter().collect::<BTreeSet<_>>()], [extend] *)
(** std [BTreeSet<usize>], src/lower/mod.rs:25, 39 *)
Definition nset_extend (s l : list nat) : list nat := fold_left (fun acc n => nset_insert n acc) l s.
(** std [BTreeSet<usize>], src/lower/mod.rs:25, 39 *)
Definition nset_mem (n : nat) (s : list nat) : bool := existsb (Nat.eqb n) s.

(** [HashMap::get] with the [PartialEq] of the key. *)
(** std [HashMap::get], src/lower/mod.rs:33-38 *)
Fixpoint map_get {K V} (eqb : K -> K -> bool) (k : K) (m : list (K * V)) : option V :=
  match m with
  | [] => None
  | (k', v) :: m' => if eqb k k' then Some v else map_get eqb k m'
  end.

(** std [HashMap::get], src/lower/mod.rs:33-38 *)
Fixpoint nats_eqb (a b : list nat) : bool :=
  match a, b with
  | [], [] => true
  | x :: a', y :: b' => Nat.eqb x y && nats_eqb a' b'
  | _, _ => false
  end.

(** ** Equality of typed expressions, src/chomp/typed/mod.rs:77-78, 90-91,
    115-116, 131-132, 147-148, 158-159, 170-178 (derived) and 223-227
    ([TypedExpression]: names count, spans do not). *)
Fixpoint texpr_eqb (x y : texpr) {struct x} : bool :=
  oname_eqb (t_name x) (t_name y) &&
  match x, y with
  | TEps _ t, TEps _ t' => ty_eqb t t'
  | TLit _ s t, TLit _ s' t' => rstr_eqb s s' && ty_eqb t t'
  | TCat _ l t, TCat _ l' t' =>
    (fix go (l l' : list texpr) : bool :=
       match l, l' with
       | [], [] => true
       | a :: l, b :: l' => texpr_eqb a b && go l l'
       | _, _ => false
       end) l l' && ty_eqb t t'
  | TAlt _ l t, TAlt _ l' t' =>
    (fix go (l l' : list texpr) : bool :=
       match l, l' with
       | [], [] => true
       | a :: l, b :: l' => texpr_eqb a b && go l l'
       | _, _ => false
       end) l l' && ty_eqb t t'
  | TFix _ i, TFix _ i' => texpr_eqb i i'
  | TVar _ i t, TVar _ i' t' => Nat.eqb i i' && ty_eqb t t'
  | _, _ => false
  end.

(** ** Identifiers *)

(** heck's conversions composed with [Ident::new] (src/chomp/name.rs:35-60,
    190-207): [None] is the panic of [Ident::new] on a string that is not an
    identifier.  heck is not part of the code, so the model takes the two
    functions as an argument. *)
Record casing := Casing { camel : rstr -> option rstr; snake : rstr -> option rstr }.

(** [name.content] as text without [r#]: [unraw().to_string()] or the string
    itself (src/chomp/name.rs:39-43). *)
Definition name_text (n : name) : rstr := content_hash_key (n_content n).

(** [*map.entry(name).or_insert(0) += 1], the new count being returned. *)
(** src/lower/mod.rs:53-54 *)
Fixpoint bump (k : rstr) (m : list (rstr * nat)) : nat * list (rstr * nat) :=
  match m with
  | [] => (1, [(k, 1)])
  | (k', n) :: m' =>
    if rstr_eqb k k' then (S n, (k', S n) :: m')
    else let '(c, m'') := bump k m' in (c, (k', n) :: m'')
  end.

(** ** What is generated *)

(** The tokens in [Ty::name]. *)
(** src/lower/mod.rs:23 *)
Inductive tname :=
| TnEpsilon                 (* [Epsilon], of chewed *)
| TnIdent (s : rstr)
| TnBox (t : tname).        (* [Box<t>] *)

(** src/lower/mod.rs:24 [Ty::rest], by the templates of lines 166, 181-209, 232-274, 313-369, 392, 401, 416-420 *)
Inductive def :=
| DEps                                            (* no tokens *)
| DLit (s : rstr) (as_char : option char)         (* struct, Display, Parse, From *)
| DCat (named : bool) (parts : list rstr) (ids : list nat)
| DAlt (parts : list rstr) (ids : list nat)
       (firsts : list (nat * list char))          (* match arms: branch, its characters *)
       (null : option nat)                        (* the default branch *)
       (all_firsts : list char)                   (* characters listed in BadBranch *)
       (as_char : bool)
| DFix (inner : option nat)                       (* [None]: pushed with empty tokens *)
| DBox (fix_id : nat).                            (* no tokens *)

(** src/lower/mod.rs:21-26 [Ty]; [rest] is [en_def]. *)
Record entry := Entry { en_name : tname; en_def : def; en_deps : list nat }.

(** src/lower/mod.rs:28-41 [RustBackend]; [context] has the last pushed id
    first. *)
Record bst := Bst {
  data : list entry;
  eps_id : option nat;
  lit_map : list (rstr * nat);
  cat_map : list (list nat * nat);
  alt_map : list (list nat * nat);
  fix_map : list (texpr * nat);
  var_map : list (nat * nat);
  name_map : list (rstr * nat);
  can_char : list nat;
  context : list nat }.

(** src/lower/mod.rs:136-151 [Default] *)
Definition bst_default : bst := Bst [] None [] [] [] [] [] [] [] [].

(** assignment to a field of [RustBackend], src/lower/mod.rs:29-41 *)
Definition set_data d (b : bst) :=
  Bst d (eps_id b) (lit_map b) (cat_map b) (alt_map b) (fix_map b) (var_map b) (name_map b) (can_char b) (context b).
(** assignment to a field of [RustBackend], src/lower/mod.rs:29-41 *)
Definition set_lit_map m (b : bst) :=
  Bst (data b) (eps_id b) m (cat_map b) (alt_map b) (fix_map b) (var_map b) (name_map b) (can_char b) (context b).
(** assignment to a field of [RustBackend], src/lower/mod.rs:29-41 *)
Definition set_cat_map m (b : bst) :=
  Bst (data b) (eps_id b) (lit_map b) m (alt_map b) (fix_map b) (var_map b) (name_map b) (can_char b) (context b).
(** assignment to a field of [RustBackend], src/lower/mod.rs:29-41 *)
Definition set_alt_map m (b : bst) :=
  Bst (data b) (eps_id b) (lit_map b) (cat_map b) m (fix_map b) (var_map b) (name_map b) (can_char b) (context b).
(** assignment to a field of [RustBackend], src/lower/mod.rs:29-41 *)
Definition set_fix_map m (b : bst) :=
  Bst (data b) (eps_id b) (lit_map b) (cat_map b) (alt_map b) m (var_map b) (name_map b) (can_char b) (context b).
(** assignment to a field of [RustBackend], src/lower/mod.rs:29-41 *)
Definition set_var_map m (b : bst) :=
  Bst (data b) (eps_id b) (lit_map b) (cat_map b) (alt_map b) (fix_map b) m (name_map b) (can_char b) (context b).
(** assignment to a field of [RustBackend], src/lower/mod.rs:29-41 *)
Definition set_name_map m (b : bst) :=
  Bst (data b) (eps_id b) (lit_map b) (cat_map b) (alt_map b) (fix_map b) (var_map b) m (can_char b) (context b).
(** assignment to a field of [RustBackend], src/lower/mod.rs:29-41 *)
Definition set_can_char m (b : bst) :=
  Bst (data b) (eps_id b) (lit_map b) (cat_map b) (alt_map b) (fix_map b) (var_map b) (name_map b) m (context b).
(** assignment to a field of [RustBackend], src/lower/mod.rs:29-41 *)
Definition set_context m (b : bst) :=
  Bst (data b) (eps_id b) (lit_map b) (cat_map b) (alt_map b) (fix_map b) (var_map b) (name_map b) (can_char b) m.

(** [self.data.push(..)], src/lower/mod.rs:164-168, 212-216, 277-281, 372-376, 390-394, 418-422 *)
Definition push_entry (e : entry) (b : bst) : bst := set_data (data b ++ [e]) b.

(** [self.data[id]] is assigned, src/lower/mod.rs:402-403 *)
Fixpoint update {A} (n : nat) (f : A -> A) (l : list A) : list A :=
  match l, n with
  | [], _ => []
  | x :: l', O => f x :: l'
  | x :: l', S m => x :: update m f l'
  end.

Section Gen.
  Variable cs : casing.

  (** src/lower/mod.rs:46-58 [new_type_name]; the identifier's text. *)
  Definition new_type_name (prefix : rstr) (nm : option name) (b : bst) : option (nat * rstr * bst) :=
    let id := length (data b) in
    match nm with
    | None => Some (id, prefix ++ dec (id + 1), b)
    | Some n =>
      match camel cs (name_text n) with
      | None => None
      | Some c => let '(count, m) := bump c (name_map b) in Some (id, c ++ dec count, set_name_map m b)
      end
    end.

  (** src/lower/mod.rs:99-133 [name_parts_snake], [name_parts_camel]. *)
  Fixpoint name_parts (conv : rstr -> option rstr) (default : rstr) (index : nat) (m : list (rstr * nat))
      (l : list (option name)) : option (list rstr) :=
    match l with
    | [] => Some []
    | None :: l' => option_map (cons (default ++ dec (index + 1))) (name_parts conv default (S index) m l')
    | Some n :: l' =>
      match conv (name_text n) with
      | None => None
      | Some c =>
        let '(count, m') := bump c m in
        option_map (cons (c ++ dec count)) (name_parts conv default (S index) m' l')
      end
    end.

  (** src/lower/mod.rs:92-97 [ty_names]: every id is indexed; [false] is the
      panic. *)
  Definition ids_ok (b : bst) (ids : list nat) : bool := forallb (fun i => Nat.ltb i (length (data b))) ids.

  (** src/lower/mod.rs:158-170 [gen_epsilon]; [eps_id] is never assigned. *)
  Definition gen_epsilon (b : bst) : option (bst * nat) :=
    match eps_id b with
    | Some id => Some (b, id)
    | None => Some (push_entry (Entry TnEpsilon DEps []) b, length (data b))
    end.

  (** src/lower/mod.rs:172-219 [gen_literal] *)
  Definition gen_literal (nm : option name) (s : rstr) (b : bst) : option (bst * nat) :=
    match map_get rstr_eqb s (lit_map b) with
    | Some id => Some (b, id)
    | None =>
      match new_type_name (lit "Lit") nm b with
      | None => None
      | Some (id, ident, b1) =>
        let '(conv, b2) :=
          match s with
          | [c] => (Some c, set_can_char (nset_insert id (can_char b1)) b1)
          | _ => (None, b1)
          end in
        let b3 := set_lit_map ((s, id) :: lit_map b2) b2 in
        Some (push_entry (Entry (TnIdent ident) (DLit s conv) []) b3, id)
      end
    end.

  (** src/lower/mod.rs:221-283 [gen_cat], after [recurse_exprs]. *)
  Definition gen_cat (nm : option name) (names : list (option name)) (ids : list nat) (b : bst) : option (bst * nat) :=
    match map_get nats_eqb ids (cat_map b) with
    | Some id => Some (b, id)
    | None =>
      match new_type_name (lit "Cat") nm b with
      | None => None
      | Some (id, ident, b1) =>
        if ids_ok b1 ids then
          let named := existsb (fun n => match n with Some _ => true | None => false end) names in
          match name_parts (snake cs) (lit "part") 0 [] names with
          | None => None
          | Some parts =>
            let b2 := set_cat_map ((ids, id) :: cat_map b1) b1 in
            Some (push_entry (Entry (TnIdent ident) (DCat named parts ids) (nset_extend [] ids)) b2, id)
          end
        else None
      end
    end.

  (** src/lower/mod.rs:296-300: the first nullable branch. *)
  Fixpoint find_nullable (k : nat) (tys : list ty) : option nat :=
    match tys with
    | [] => None
    | t :: tys' => if nullable t then Some k else find_nullable (S k) tys'
    end.
  (** src/lower/mod.rs:301-311: the branches with a non-empty first set. *)
  Fixpoint first_arms (k : nat) (tys : list ty) : list (nat * list char) :=
    match tys with
    | [] => []
    | t :: tys' =>
      if cset_is_empty (first_set t) then first_arms (S k) tys' else (k, first_set t) :: first_arms (S k) tys'
    end.

  (** src/lower/mod.rs:285-378 [gen_alt], after [recurse_exprs]. *)
  Definition gen_alt (nm : option name) (names : list (option name)) (tys : list ty) (ids : list nat) (b : bst)
      : option (bst * nat) :=
    match map_get nats_eqb ids (alt_map b) with
    | Some id => Some (b, id)
    | None =>
      match new_type_name (lit "Alt") nm b with
      | None => None
      | Some (id, ident, b1) =>
        if ids_ok b1 ids then
          match name_parts (camel cs) (lit "Branch") 0 [] names with
          | None => None
          | Some parts =>
            let conv := forallb (fun i => nset_mem i (can_char b1)) ids in
            let b2 := if conv then set_can_char (nset_insert id (can_char b1)) b1 else b1 in
            let b3 := set_alt_map ((ids, id) :: alt_map b2) b2 in
            Some (push_entry
                    (Entry (TnIdent ident)
                       (DAlt parts ids (first_arms 0 tys) (find_nullable 0 tys) (flat_map first_set tys) conv)
                       (nset_extend [] ids)) b3, id)
          end
        else None
      end
    end.

  (** src/lower/mod.rs:407-425 [gen_variable]; [None] when the index underflows
      the context (line 408). *)
  Definition gen_variable (index : nat) (b : bst) : option (bst * nat) :=
    match nth_error (context b) index with
    | None => None
    | Some fix_id =>
      match map_get Nat.eqb fix_id (var_map b) with
      | Some id => Some (b, id)
      | None =>
        match nth_error (data b) fix_id with
        | None => None
        | Some fe =>
          let id := length (data b) in
          let b1 := set_var_map ((fix_id, id) :: var_map b) b in
          Some (push_entry (Entry (TnBox (en_name fe)) (DBox fix_id) []) b1, id)
        end
      end
    end.

  (** src/lower/mod.rs:60-75 [recurse_exprs], for a given generator. *)
  Fixpoint gen_list (gen : texpr -> bst -> option (bst * nat)) (l : list texpr) (b : bst) : option (bst * list nat) :=
    match l with
    | [] => Some (b, [])
    | e :: l' =>
      match gen e b with
      | None => None
      | Some (b1, id) =>
        match gen_list gen l' b1 with
        | None => None
        | Some (b2, ids) => Some (b2, id :: ids)
        end
      end
    end.

  (** src/chomp/typed/lower.rs:29-41 [GenerateCode::gen] and
      src/lower/mod.rs:380-405 [gen_fix]. *)
  Fixpoint gen (e : texpr) (b : bst) {struct e} : option (bst * nat) :=
    match e with
    | TEps _ _ => gen_epsilon b
    | TLit a s _ => gen_literal (a_name a) s b
    | TCat a l _ =>
      match (fix go (l : list texpr) (b : bst) : option (bst * list nat) :=
               match l with
               | [] => Some (b, [])
               | e :: l' =>
                 match gen e b with
                 | None => None
                 | Some (b1, id) =>
                   match go l' b1 with
                   | None => None
                   | Some (b2, ids) => Some (b2, id :: ids)
                   end
                 end
               end) l b with
      | None => None
      | Some (b1, ids) => gen_cat (a_name a) (map t_name l) ids b1
      end
    | TAlt a l _ =>
      match (fix go (l : list texpr) (b : bst) : option (bst * list nat) :=
               match l with
               | [] => Some (b, [])
               | e :: l' =>
                 match gen e b with
                 | None => None
                 | Some (b1, id) =>
                   match go l' b1 with
                   | None => None
                   | Some (b2, ids) => Some (b2, id :: ids)
                   end
                 end
               end) l b with
      | None => None
      | Some (b1, ids) => gen_alt (a_name a) (map t_name l) (map get_type l) ids b1
      end
    | TFix a inner =>
      match map_get texpr_eqb inner (fix_map b) with
      | Some id => Some (b, id)
      | None =>
        match new_type_name (lit "Fix") (a_name a) b with
        | None => None
        | Some (id, ident, b1) =>
          let b2 := set_fix_map ((inner, id) :: fix_map b1) b1 in
          let b3 := push_entry (Entry (TnIdent ident) (DFix None) []) b2 in
          match gen inner (set_context (id :: context b3) b3) with
          | None => None
          | Some (b4, j) =>
            let b5 := set_context (tl (context b4)) b4 in
            match nth_error (data b5) j with
            | None => None
            | Some _ =>
              if Nat.ltb id (length (data b5)) then
                Some (set_data (update id (fun en => Entry (en_name en) (DFix (Some j)) [j]) (data b5)) b5, id)
              else None
            end
          end
        end
      end
    | TVar _ i _ => gen_variable i b
    end.

  (** src/lower/mod.rs:427-444, the loop of [emit_code]: the ids whose tokens
      are emitted, in order.  [fuel] bounds the number of rounds. *)
  Fixpoint emit_loop (fuel : nat) (d : list entry) (todo completed : list nat) : option (list nat) :=
    match todo with
    | [] => Some []
    | _ =>
      match fuel with
      | O => None
      | S n =>
        let completed' := nset_extend completed todo in
        match
          (fix round (next acc : list nat) : option (list nat) :=
             match next with
             | [] => Some acc
             | i :: next' =>
               match nth_error d i with
               | None => None
               | Some en => round next' (nset_extend acc (filter (fun j => negb (nset_mem j completed')) (en_deps en)))
               end
             end) todo []
        with
        | None => None
        | Some todo' => option_map (app todo) (emit_loop n d todo' completed')
        end
      end
    end.

  (** src/lower/mod.rs:427-462, with the alias emitted at the end.  The number
      of the alias is looked up under the identifier as it is (line 449-450):
      those in the map are not raw, so a raw one is not found; [format_ident!]
      drops the [r#] (line 451).  Simplified: a name that is a string is taken
      to be an identifier, where [Ident::new] would panic (src/chomp/name.rs:31). *)
  Definition emit_code (nm : option name) (id : nat) (b : bst) : option (list nat * (rstr * tname)) :=
    match emit_loop (S (length (data b))) (data b) [id] [] with
    | None => None
    | Some order =>
      match nth_error (data b) id with
      | None => None
      | Some root =>
        match nm with
        | Some n =>
          let raw := match n_content n with Spanned i => id_raw i | Spanless _ => false end in
          let found := if raw then None else map_get rstr_eqb (name_text n) (name_map b) in
          let count := match found with Some c => c | None => 0 end + 1 in
          Some (order, (name_text n ++ dec count, en_name root))
        | None => Some (order, (lit "Ast", en_name root))
        end
      end
    end.
End Gen.

(** src/main.rs:47-51: generation for a whole typed program, from the default
    backend: the table and the root. *)
Definition generate (cs : casing) (e : texpr) : option (bst * nat) := gen cs e bst_default.
