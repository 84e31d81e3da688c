(** * ArithLalr: chomp-bench/src/arith/lalr.lalrpop, the LALRPOP grammar.

    LALRPOP is not modelled: it is taken to read exactly the sentences of the
    grammar, tokenized by its default lexer (longest match; what matches [\s*]
    between tokens is dropped), and to run the actions of the derivation.
    [None] as a value is a panic in an action.  What happens on other texts is
    left open. *)
From Coq Require Import String ZArith.
From Verif Require Export ArithGen.
From Coq Require Import List.
Open Scope list_scope.

(** Unicode's [White_Space], the regular expression [\s]. *)
(** the lexer LALRPOP builds (not in the repository) for chomp-bench/src/arith/lalr.lalrpop:12-33 *)
Definition white (c : char) : bool :=
  existsb (fun r => (fst r <=? c)%N && (c <=? snd r)%N)
    [(9, 13); (32, 32); (133, 133); (160, 160); (5760, 5760); (8192, 8202); (8232, 8233); (8239, 8239); (8287, 8287); (12288, 12288)]%N.
(** [[0-9]] *)
(** chomp-bench/src/arith/lalr.lalrpop:33 *)
Definition decimal_digit (c : char) : bool := (48 <=? c)%N && (c <=? 57)%N.

(** The terminals: lalr.lalrpop:12-13, 23-24, 29-30, 33. *)
Inductive atok := ANum (w : rstr) | APlus | AMinus | ATimes | AOver | AOpen | AClose.
(** chomp-bench/src/arith/lalr.lalrpop:12-13, 23-24, 29-30, 33 *)
Definition symbol (c : char) : option atok :=
  if N.eqb c (chr "+") then Some APlus else if N.eqb c (chr "-") then Some AMinus else if N.eqb c (chr "*") then Some ATimes
  else if N.eqb c (chr "/") then Some AOver else if N.eqb c (chr "(") then Some AOpen else if N.eqb c (chr ")") then Some AClose else None.
(** The digits at the start of the text belong to one token. *)
(** the lexer LALRPOP builds (not in the repository) for chomp-bench/src/arith/lalr.lalrpop:12-33 *)
Definition starts_digit (s : rstr) : bool := match s with c :: _ => decimal_digit c | [] => false end.
(** the lexer LALRPOP builds (not in the repository) for chomp-bench/src/arith/lalr.lalrpop:12-33 *)
Fixpoint alex (s : rstr) : option (list atok) :=
  match s with
  | [] => Some []
  | c :: s' =>
    match alex s' with
    | None => None
    | Some ts =>
      if white c then Some ts
      else if decimal_digit c then
        match starts_digit s', ts with
        | true, ANum w :: ts' => Some (ANum (c :: w) :: ts')
        | _, _ => Some (ANum [c] :: ts)
        end
      else match symbol c with Some t => Some (t :: ts) | None => None end
    end
  end.

(** the actions of chomp-bench/src/arith/lalr.lalrpop are strict *)
Definition strictly (f : Z -> Z -> option Z) (x y : option Z) : option Z := match x, y with Some a, Some b => f a b | _, _ => None end.
Section Grammar.
  Variable checks : bool.
  (** lalr.lalrpop:18-19, 7: the closures of the folds *)
  Definition mul_fold (acc : option Z) (x : bool * option Z) : option Z := strictly (if fst x then i64_mul checks else i64_div) acc (snd x).
  (** chomp-bench/src/arith/lalr.lalrpop:7 *)
  Definition add_fold (acc : option Z) (x : bool * option Z) : option Z := strictly (if fst x then i64_add checks else i64_sub checks) acc (snd x).
  (** lalr.lalrpop:27-33 [Term], [Number] *)
  Inductive LTerm : list atok -> option Z -> Prop :=
  | l_num w : LTerm [ANum w] (parse_i64 w)
  | l_neg w : LTerm [AMinus; ANum w] (match parse_i64 w with Some x => i64_neg checks x | None => None end)
  | l_paren ts v : LExpr ts v -> LTerm (AOpen :: ts ++ [AClose]) v
  (** lalr.lalrpop:16-25 [Product], [MulOp]; [LMuls] is [(<MulOp> <Term>)*] *)
  with LProduct : list atok -> option Z -> Prop :=
  | l_product ts t us l : LTerm ts t -> LMuls us l -> LProduct (ts ++ us) (fold_left mul_fold l t)
  with LMuls : list atok -> list (bool * option Z) -> Prop :=
  | l_muls_nil : LMuls [] []
  | l_muls_cons (op : bool) ts t us l : LTerm ts t -> LMuls us l -> LMuls ((if op then ATimes else AOver) :: ts ++ us) ((op, t) :: l)
  (** lalr.lalrpop:5-14 [Expression], [AddOp]; [LAdds] is [(<AddOp> <Product>)*] *)
  with LExpr : list atok -> option Z -> Prop :=
  | l_expr ts p us l : LProduct ts p -> LAdds us l -> LExpr (ts ++ us) (fold_left add_fold l p)
  with LAdds : list atok -> list (bool * option Z) -> Prop :=
  | l_adds_nil : LAdds [] []
  | l_adds_cons (op : bool) ts p us l : LProduct ts p -> LAdds us l -> LAdds ((if op then APlus else AMinus) :: ts ++ us) ((op, p) :: l).
  (** [ExpressionParser::new().parse(s)]: the text is read, with this value. *)
  (** chomp-bench/src/arith/lalr.lalrpop:5 *)
  Definition lalr_reads (s : rstr) (v : option Z) : Prop := exists ts, alex s = Some ts /\ LExpr ts v.
End Grammar.

Scheme LTerm_ind5 := Induction for LTerm Sort Prop
with LProduct_ind5 := Induction for LProduct Sort Prop
with LMuls_ind5 := Induction for LMuls Sort Prop
with LExpr_ind5 := Induction for LExpr Sort Prop
with LAdds_ind5 := Induction for LAdds Sort Prop.
Combined Scheme lalr_mutind from LTerm_ind5, LProduct_ind5, LMuls_ind5, LExpr_ind5, LAdds_ind5.
