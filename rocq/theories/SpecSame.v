(** * SpecSame: programs and outcomes without positions. *)
From Verif Require Export Main.

(** ** Names and tokens without positions *)
Definition unspan_ident (i : ident) : ident := Ident (id_raw i) (id_sym i) call_site.
Definition unspan_content (c : content) : content := match c with Spanned i => Spanned (unspan_ident i) | Spanless s => Spanless s end.
Definition unspan_name (n : name) : name := Name (unspan_content (n_content n)) (n_kind n).
Fixpoint unspan_token (t : token) : token :=
  match t with
  | TkIdent i => TkIdent (unspan_ident i)
  | TkStr v _ => TkStr v call_site
  | TkPunct c _ => TkPunct c call_site
  | TkGroup _ ts => TkGroup call_site (map unspan_token ts)
  | TkOther _ => TkOther call_site
  end.

(** ** Expressions without positions, and with other names *)
Section Names.
  Context (f : name -> name).
  Definition map_ann (a : ann) : ann := Ann (option_map f (a_name a)) call_site.
  Fixpoint map_expr (e : nexpr) : nexpr :=
    match e with
    | EEps a => EEps (map_ann a)
    | ELit a s => ELit (map_ann a) s
    | ECat a x r => ECat (map_ann a) (map_expr x) (map (fun y => (call_site, map_expr (snd y))) r)
    | EAlt a x r => EAlt (map_ann a) (map_expr x) (map (fun y => (call_site, map_expr (snd y))) r)
    | EFix a i => EFix (map_ann a) (map_expr i)
    | EVar a i => EVar (map_ann a) i
    | ECall a o l => ECall (map_ann a) (map_expr o) (map map_expr l)
    | ELam a ns i => ELam (map_ann a) (map f ns) (map_expr i)
    | ELet a n x y => ELet (map_ann a) (f n) (map_expr x) (map_expr y)
    end.
  Fixpoint map_texpr (e : texpr) : texpr :=
    match e with
    | TEps a t => TEps (map_ann a) t
    | TLit a s t => TLit (map_ann a) s t
    | TCat a l t => TCat (map_ann a) (map map_texpr l) t
    | TAlt a l t => TAlt (map_ann a) (map map_texpr l) t
    | TFix a i => TFix (map_ann a) (map_texpr i)
    | TVar a i t => TVar (map_ann a) i t
    end.
  Definition map_convert_error (x : convert_error) : convert_error :=
    match x with
    | UndeclaredName n => UndeclaredName (f n)
    | EmptyCat _ => EmptyCat call_site
    | EmptyAlt _ => EmptyAlt call_site
    | EmptyCall _ => EmptyCall call_site
    end.
  Definition map_red_error (x : red_error) : red_error :=
    match x with
    | CallNotAFunction on _ => CallNotAFunction (map_expr on) call_site
    | WrongArgCount l args _ => WrongArgCount (map_expr l) (map map_expr args) call_site
    end.
  Definition map_type_error (x : type_error) : type_error :=
    match x with
    | FirstNullable e _ => FirstNullable (map_texpr e) call_site
    | FirstFlastOverlap t _ e => FirstFlastOverlap t call_site (map_texpr e)
    | BothNullable t _ e => BothNullable t call_site (map_texpr e)
    | FirstOverlap t _ e => FirstOverlap t call_site (map_texpr e)
    | VariableError k i _ n => VariableError k i call_site (option_map f n)
    | UnexpectedCall _ e => UnexpectedCall call_site (map_expr e)
    | UnexpectedLambda _ e => UnexpectedLambda call_site (map_expr e)
    | UnexpectedLet _ e => UnexpectedLet call_site (map_expr e)
    | ExpectedLambda _ e => ExpectedLambda call_site (map_expr e)
    end.
  Definition map_main_error (x : main_error) : main_error :=
    match x with
    | MParse => MParse
    | MConvert y => MConvert (map_convert_error y)
    | MReduce y => MReduce (map_red_error y)
    | MType y => MType (map_type_error y)
    end.
End Names.
Definition res_both {A B E F} (f : A -> B) (g : E -> F) (x : res A E) : res B F :=
  match x with Ok a => Ok (f a) | Err e => Err (g e) | Panic => Panic | OutOfFuel => OutOfFuel end.

(** The outcome of [chomp] without positions: the code has none, the errors
    lose theirs. *)
Definition without_positions {A} (x : res A main_error) : res A main_error := res_both (fun c => c) (map_main_error unspan_name) x.

(** ** Programs whose goal has a name: it is a name, or is labelled *)
Fixpoint goal_of (s : stmt) : node := match s with SGoal _ e _ => e | SLet _ _ _ _ _ _ next => goal_of next end.
Inductive has_name : node -> Prop :=
| name_ident i : has_name (NIdent i)
| name_paren sp e : has_name e -> has_name (NParen sp e)
| name_call t : has_name t -> has_name (NCall [t])
| name_cat x p : has_name x -> has_name (NCatP [(x, p)])
| name_label c l : has_name (NLabelled c (Some l))
| name_labelled c : has_name c -> has_name (NLabelled c None)
| name_alt x p : has_name x -> has_name (NAltP [(x, p)]).

(** ** Outcomes with names as texts *)
Definition plain_name (n : name) : name := Name (Spanless (name_text n)) (n_kind n).
