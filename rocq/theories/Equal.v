(** The operator [==]: the derived [PartialEq] of syntax trees (src/ast.rs:28, 52, 75, 84, 96, 106, 118, 129, 142,
    153, 173), of slots (src/environment.rs:15, 38), positions (src/source_loc.rs:14), tokens (src/token.rs:4, 66)
    and errors (src/error.rs:3, 25).

    A derived comparison compares the variant and then the fields from the first to the last.  A [Vec] compares the
    elements in order, a [Cell] its value, an [f64] as IEEE 754 does ([SFeqb]).  An [IndexMap] (src/ast.rs:76-78)
    compares as documented by the library: the same number of entries, and each key of the first is in the second with
    an equal value; the order does not count.  A map is the list of its entries here (Ast.v); lists in which a key
    occurs twice stand for no map. *)
From Coq Require Import Floats.SpecFloat.
From Verif Require Import Base F64 Token Ast.

Definition list_eqb {A} (f : A -> A -> bool) : list A -> list A -> bool :=
  fix go l l' := match l, l' with
                 | nil, nil => true
                 | a :: r, a' :: r' => f a a' && go r r'
                 | _, _ => false
                 end.
Definition option_eqb {A} (f : A -> A -> bool) (o o' : option A) : bool :=
  match o, o' with
  | None, None => true
  | Some a, Some a' => f a a'
  | _, _ => false
  end.
(** src/source_loc.rs:14-18 *)
Definition loc_eqb (l l' : source_loc) : bool :=
  (loc_line l =? loc_line l')%N && (loc_column l =? loc_column l')%N.
(** src/environment.rs:15-16 *)
Definition slot_eqb (s s' : slot_index) : bool := (slot s =? slot s')%N.
(** src/environment.rs:38-42 *)
Definition var_eqb (v v' : var_loc) : bool := (distance v =? distance v')%N && (index v =? index v')%N.
(** src/ast.rs:129-135 *)
Definition kind_eqb (k k' : fun_type) : bool :=
  match k, k' with
  | PlainFunction, PlainFunction | Method, Method | Initializer, Initializer | ClassMethod, ClassMethod => true
  | _, _ => false
  end.
(** src/ast.rs:142-146 *)
Definition unary_eqb (o o' : unary_op) : bool :=
  match o, o' with UMinus, UMinus | UNot, UNot => true | _, _ => false end.
(** src/ast.rs:153-166 *)
Definition binary_eqb (o o' : binary_op) : bool :=
  match o, o' with
  | BPlus, BPlus | BMinus, BMinus | BMultiply, BMultiply | BDivide, BDivide | BEqual, BEqual | BNotEqual, BNotEqual
  | BLess, BLess | BLessEqual, BLessEqual | BGreater, BGreater | BGreaterEqual, BGreaterEqual => true
  | _, _ => false
  end.
(** src/ast.rs:173-177 *)
Definition logical_eqb (o o' : logical_op) : bool :=
  match o, o' with LAnd, LAnd | LOr, LOr => true | _, _ => false end.
(** src/ast.rs:118-122 *)
Definition param_eqb (p p' : param) : bool := String.eqb (p_name p) (p_name p') && loc_eqb (p_loc p) (p_loc p').

(** [IndexMap::get] *)
Fixpoint map_get {V} (m : list (string * V)) (k : string) : option V :=
  match m with
  | nil => None
  | (k', v) :: r => if String.eqb k' k then Some v else map_get r k
  end.
(** [PartialEq] of [IndexMap], for the [Map] of src/ast.rs:75-78 *)
Definition map_eqb {V} (f : V -> V -> bool) (m m' : list (string * V)) : bool :=
  (length m =? length m') &&
  forallb (fun kv => match kv with
                     | (k, v) => match map_get m' k with Some v' => f v v' | None => false end
                     end) m.

(** src/ast.rs:28-42 [Stmt], 52-73 [Expr], 84-90 [ClassDefinition], 96-100 [NamedFunctionDefinition], 106-112
    [FunctionDefinition] *)
Fixpoint stmt_eqb (st st' : stmt) : bool :=
  match st, st' with
  | SBlock b, SBlock b' => list_eqb stmt_eqb b b'
  | SBreak l, SBreak l' => loc_eqb l l'
  | SClass c, SClass c' => class_eqb c c'
  | SContinue l, SContinue l' => loc_eqb l l'
  | SExpression e, SExpression e' => expr_eqb e e'
  | SFun (NamedFun n f), SFun (NamedFun n' f') => String.eqb n n' && fun_eqb f f'
  | SIf c t e, SIf c' t' e' => expr_eqb c c' && stmt_eqb t t' && option_eqb stmt_eqb e e'
  | SPrint e, SPrint e' => expr_eqb e e'
  | SReturn e l, SReturn e' l' => expr_eqb e e' && loc_eqb l l'
  | SVar x s e l, SVar x' s' e' l' => String.eqb x x' && slot_eqb s s' && expr_eqb e e' && loc_eqb l l'
  | SWhile c b, SWhile c' b' => expr_eqb c c' && stmt_eqb b b'
  | SWhileIncrement c b i, SWhileIncrement c' b' i' => expr_eqb c c' && stmt_eqb b b' && expr_eqb i i'
  | _, _ => false
  end
with expr_eqb (ex ex' : expr) : bool :=
  match ex, ex' with
  | EAssign x v e l, EAssign x' v' e' l' => String.eqb x x' && var_eqb v v' && expr_eqb e e' && loc_eqb l l'
  | ECall f a l, ECall f' a' l' => expr_eqb f f' && list_eqb expr_eqb a a' && loc_eqb l l'
  | EBinary a o b l, EBinary a' o' b' l' => expr_eqb a a' && binary_eqb o o' && expr_eqb b b' && loc_eqb l l'
  | EFunction f, EFunction f' => fun_eqb f f'
  | EGet e p l, EGet e' p' l' => expr_eqb e e' && String.eqb p p' && loc_eqb l l'
  | EGetIndex e i l, EGetIndex e' i' l' => expr_eqb e e' && expr_eqb i i' && loc_eqb l l'
  | EGrouping e, EGrouping e' => expr_eqb e e'
  | EArray es, EArray es' => list_eqb expr_eqb es es'
  | EBool b, EBool b' => Bool.eqb b b'
  | EMap m, EMap m' => map_eqb expr_eqb m m'
  | ENumber x, ENumber x' => SFeqb x x'
  | ENil, ENil => true
  | EString s, EString s' => String.eqb s s'
  | ELogical a o b, ELogical a' o' b' => expr_eqb a a' && logical_eqb o o' && expr_eqb b b'
  | ESet o p v l, ESet o' p' v' l' => expr_eqb o o' && String.eqb p p' && expr_eqb v v' && loc_eqb l l'
  | ESetIndex a i v l, ESetIndex a' i' v' l' => expr_eqb a a' && expr_eqb i i' && expr_eqb v v' && loc_eqb l l'
  | ESuper v m l, ESuper v' m' l' => var_eqb v v' && String.eqb m m' && loc_eqb l l'
  | EVariable x v l, EVariable x' v' l' => String.eqb x x' && var_eqb v v' && loc_eqb l l'
  | EUnary o e l, EUnary o' e' l' => unary_eqb o o' && expr_eqb e e' && loc_eqb l l'
  | _, _ => false
  end
with class_eqb (c c' : class_def) : bool :=
  match c, c' with
  | ClassDef n s ms l, ClassDef n' s' ms' l' =>
    String.eqb n n' && option_eqb expr_eqb s s' &&
    list_eqb (fun m m' => match m, m' with NamedFun x f, NamedFun x' f' => String.eqb x x' && fun_eqb f f' end) ms ms' &&
    loc_eqb l l'
  end
with fun_eqb (f f' : fun_def) : bool :=
  match f, f' with
  | FunDef ps b k l, FunDef ps' b' k' l' =>
    list_eqb param_eqb ps ps' && list_eqb stmt_eqb b b' && kind_eqb k k' && loc_eqb l l'
  end.
(** [Vec<Stmt>], what [parse] returns *)
Definition program_eqb : list stmt -> list stmt -> bool := list_eqb stmt_eqb.

(** src/token.rs:66-74; the kinds (src/token.rs:4) are compared as such *)
Definition token_eqb (t t' : token) : bool :=
  tt_eqb (t_type t) (t_type t') && String.eqb (t_lexeme t) (t_lexeme t') &&
  option_eqb String.eqb (t_string t) (t_string t') && option_eqb SFeqb (t_float t) (t_float t') &&
  (t_line t =? t_line t')%N && (t_column t =? t_column t')%N.
(** src/error.rs:25-30 *)
Definition cause_eqb (c c' : cause) : bool :=
  loc_eqb (c_loc c) (c_loc c') && option_eqb String.eqb (c_token c) (c_token c') &&
  String.eqb (c_message c) (c_message c').
(** src/error.rs:3-6 *)
Definition error_eqb : parse_error -> parse_error -> bool := list_eqb cause_eqb.
