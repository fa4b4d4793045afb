(** Trees that differ at most in the order in which the entries of maps stand.  Independent of the models. *)
From Coq Require Import Floats.SpecFloat Permutation.
From Verif Require Import Base F64 Token Ast Scanner Parser Resolver SpecLex SpecTree ParseFinal ResolveFinal.

Inductive same_option {A} (R : A -> A -> Prop) : option A -> option A -> Prop :=
| same_none : same_option R None None
| same_some a b : R a b -> same_option R (Some a) (Some b).
Inductive same_entry (R : expr -> expr -> Prop) : string * expr -> string * expr -> Prop :=
| same_entry_intro k e e' : R e e' -> same_entry R (k, e) (k, e').

Inductive same_stmt : stmt -> stmt -> Prop :=
| same_block b b' : Forall2 same_stmt b b' -> same_stmt (SBlock b) (SBlock b')
| same_break l : same_stmt (SBreak l) (SBreak l)
| same_class_stmt c c' : same_class c c' -> same_stmt (SClass c) (SClass c')
| same_continue l : same_stmt (SContinue l) (SContinue l)
| same_expression e e' : same_expr e e' -> same_stmt (SExpression e) (SExpression e')
| same_fun_stmt f f' : same_named f f' -> same_stmt (SFun f) (SFun f')
| same_if c c' t t' e e' : same_expr c c' -> same_stmt t t' -> same_option same_stmt e e' ->
    same_stmt (SIf c t e) (SIf c' t' e')
| same_print e e' : same_expr e e' -> same_stmt (SPrint e) (SPrint e')
| same_return e e' l : same_expr e e' -> same_stmt (SReturn e l) (SReturn e' l)
| same_var x s e e' l : same_expr e e' -> same_stmt (SVar x s e l) (SVar x s e' l)
| same_while c c' b b' : same_expr c c' -> same_stmt b b' -> same_stmt (SWhile c b) (SWhile c' b')
| same_increment c c' b b' i i' : same_expr c c' -> same_stmt b b' -> same_expr i i' ->
    same_stmt (SWhileIncrement c b i) (SWhileIncrement c' b' i')
with same_expr : expr -> expr -> Prop :=
| same_assign x v e e' l : same_expr e e' -> same_expr (EAssign x v e l) (EAssign x v e' l)
| same_call f f' a a' l : same_expr f f' -> Forall2 same_expr a a' -> same_expr (ECall f a l) (ECall f' a' l)
| same_binary a a' op b b' l : same_expr a a' -> same_expr b b' -> same_expr (EBinary a op b l) (EBinary a' op b' l)
| same_function f f' : same_fun f f' -> same_expr (EFunction f) (EFunction f')
| same_get e e' p l : same_expr e e' -> same_expr (EGet e p l) (EGet e' p l)
| same_get_index e e' i i' l : same_expr e e' -> same_expr i i' -> same_expr (EGetIndex e i l) (EGetIndex e' i' l)
| same_grouping e e' : same_expr e e' -> same_expr (EGrouping e) (EGrouping e')
| same_array es es' : Forall2 same_expr es es' -> same_expr (EArray es) (EArray es')
| same_bool b : same_expr (EBool b) (EBool b)
| same_map m m1 m' : Forall2 (same_entry same_expr) m m1 -> Permutation m1 m' -> same_expr (EMap m) (EMap m')
| same_number x : same_expr (ENumber x) (ENumber x)
| same_nil : same_expr ENil ENil
| same_string s : same_expr (EString s) (EString s)
| same_logical a a' op b b' : same_expr a a' -> same_expr b b' -> same_expr (ELogical a op b) (ELogical a' op b')
| same_set o o' p v v' l : same_expr o o' -> same_expr v v' -> same_expr (ESet o p v l) (ESet o' p v' l)
| same_set_index a a' i i' v v' l : same_expr a a' -> same_expr i i' -> same_expr v v' ->
    same_expr (ESetIndex a i v l) (ESetIndex a' i' v' l)
| same_super v m l : same_expr (ESuper v m l) (ESuper v m l)
| same_variable x v l : same_expr (EVariable x v l) (EVariable x v l)
| same_unary op e e' l : same_expr e e' -> same_expr (EUnary op e l) (EUnary op e' l)
with same_class : class_def -> class_def -> Prop :=
| same_class_def n s s' ms ms' l : same_option same_expr s s' -> Forall2 same_named ms ms' ->
    same_class (ClassDef n s ms l) (ClassDef n s' ms' l)
with same_named : named_fun -> named_fun -> Prop :=
| same_named_fun n f f' : same_fun f f' -> same_named (NamedFun n f) (NamedFun n f')
with same_fun : fun_def -> fun_def -> Prop :=
| same_fun_def ps b b' k l : Forall2 same_stmt b b' -> same_fun (FunDef ps b k l) (FunDef ps b' k l).

(** Numbers that equal only themselves: not NaN, and not minus zero. *)
Definition ordinary (x : f64) : Prop := x <> S754_nan /\ x <> S754_zero true.
(** Trees in which maps are maps and numbers are ordinary. *)
Definition ordinary_part (p : part) : Prop :=
  match p with
  | PExpr (ENumber x) => ordinary x
  | PExpr (EMap m) => NoDup (map fst m)
  | _ => True
  end.
(** No map has two entries. *)
Definition small_map (p : part) : Prop :=
  match p with PExpr (EMap m) => length m <= 1 | _ => True end.

(** A program that comes from a text, resolved or not. *)
Definition from_source (l : list stmt) : Prop := exists U oc gs l0, sane U /\ valid_source gs /\ accepted U oc gs l0 /\
  (l = l0 \/ exists s s', top_state s /\ resolver_resolve l0 s = Done (Ok l, s')).
