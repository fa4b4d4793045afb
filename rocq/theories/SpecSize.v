(** The size of syntax trees.  Independent of the models. *)
From Verif Require Import Base F64 Token Ast.

Definition sum (l : list nat) : nat := fold_right plus 0 l.
Definition sum_of {A} (f : A -> nat) (l : list A) : nat := sum (map f l).
Definition of_option {A} (f : A -> nat) (o : option A) : nat :=
  match o with Some a => f a | None => 0 end.

(** The number of statements, expressions, class, method and function
    definitions, parameters and map entries. *)
Fixpoint stmt_parts (st : stmt) : nat :=
  S match st with
    | SBlock b => sum_of stmt_parts b
    | SBreak _ | SContinue _ => 0
    | SClass c => class_parts c
    | SExpression e | SPrint e | SReturn e _ | SVar _ _ e _ => expr_parts e
    | SFun f => named_parts f
    | SIf c t e => expr_parts c + stmt_parts t + of_option stmt_parts e
    | SWhile c b => expr_parts c + stmt_parts b
    | SWhileIncrement c b i => expr_parts c + stmt_parts b + expr_parts i
    end
with expr_parts (ex : expr) : nat :=
  S match ex with
    | EAssign _ _ e _ | EGet e _ _ | EGrouping e | EUnary _ e _ => expr_parts e
    | ECall f args _ => expr_parts f + sum_of expr_parts args
    | EBinary a _ b _ | ELogical a _ b | EGetIndex a b _ | ESet a _ b _ =>
      expr_parts a + expr_parts b
    | ESetIndex a i v _ => expr_parts a + expr_parts i + expr_parts v
    | EFunction f => fun_parts f
    | EArray es => sum_of expr_parts es
    | EMap m => sum_of (fun kv => match kv with (_, e) => S (expr_parts e) end) m
    | EBool _ | ENumber _ | ENil | EString _ | ESuper _ _ _ | EVariable _ _ _ => 0
    end
with class_parts (c : class_def) : nat :=
  match c with ClassDef _ s ms _ => S (of_option expr_parts s + sum_of named_parts ms) end
with named_parts (f : named_fun) : nat :=
  match f with NamedFun _ f => S (fun_parts f) end
with fun_parts (f : fun_def) : nat :=
  match f with FunDef ps b _ _ => S (List.length ps + sum_of stmt_parts b) end.

Definition program_size (l : list stmt) : nat := sum_of stmt_parts l.

(** How deeply expressions are nested in parentheses. *)
Fixpoint grouped (n : nat) (e : expr) : expr :=
  match n with 0 => e | S n => EGrouping (grouped n e) end.
