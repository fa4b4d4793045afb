(** Syntax trees of the same form, whose leaves are related.  Of the models only the state of the resolver is used. *)
From Verif Require Import Base F64 Token Ast Resolver.

Inductive option_like {A} (R : A -> A -> Prop) : option A -> option A -> Prop :=
| none_like : option_like R None None
| some_like a b : R a b -> option_like R (Some a) (Some b).

(** How the leaves are related: names, map keys, numbers, strings, positions, and kinds of methods. *)
Record leaves : Type := mkLeaves {
  names_like : string -> string -> Prop;
  keys_like : string -> string -> Prop;
  numbers_like : f64 -> f64 -> Prop;
  strings_like : string -> string -> Prop;
  places_like : source_loc -> source_loc -> Prop;
  kinds_like : fun_type -> fun_type -> Prop }.

Section Like.
Variable R : leaves.
Notation N := (names_like R).
Notation L := (places_like R).

Definition param_like (p q : param) : Prop := N (p_name p) (p_name q) /\ L (p_loc p) (p_loc q).
Inductive entry_like (E : expr -> expr -> Prop) : string * expr -> string * expr -> Prop :=
| entry_like_intro k k' e e' : keys_like R k k' -> E e e' -> entry_like E (k, e) (k', e').

Inductive stmt_like : stmt -> stmt -> Prop :=
| block_like b b' : Forall2 stmt_like b b' -> stmt_like (SBlock b) (SBlock b')
| break_like l l' : L l l' -> stmt_like (SBreak l) (SBreak l')
| class_stmt_like c c' : class_like c c' -> stmt_like (SClass c) (SClass c')
| continue_like l l' : L l l' -> stmt_like (SContinue l) (SContinue l')
| expression_like e e' : expr_like e e' -> stmt_like (SExpression e) (SExpression e')
| fun_stmt_like f f' : named_like f f' -> stmt_like (SFun f) (SFun f')
| if_like c c' t t' e e' : expr_like c c' -> stmt_like t t' -> option_like stmt_like e e' ->
    stmt_like (SIf c t e) (SIf c' t' e')
| print_like e e' : expr_like e e' -> stmt_like (SPrint e) (SPrint e')
| return_like e e' l l' : expr_like e e' -> L l l' -> stmt_like (SReturn e l) (SReturn e' l')
| var_like x x' s e e' l l' : N x x' -> expr_like e e' -> L l l' -> stmt_like (SVar x s e l) (SVar x' s e' l')
| while_like c c' b b' : expr_like c c' -> stmt_like b b' -> stmt_like (SWhile c b) (SWhile c' b')
| increment_like c c' b b' i i' : expr_like c c' -> stmt_like b b' -> expr_like i i' ->
    stmt_like (SWhileIncrement c b i) (SWhileIncrement c' b' i')
with expr_like : expr -> expr -> Prop :=
| assign_like x x' v e e' l l' : N x x' -> expr_like e e' -> L l l' -> expr_like (EAssign x v e l) (EAssign x' v e' l')
| call_like f f' a a' l l' : expr_like f f' -> Forall2 expr_like a a' -> L l l' -> expr_like (ECall f a l) (ECall f' a' l')
| binary_like a a' op b b' l l' : expr_like a a' -> expr_like b b' -> L l l' ->
    expr_like (EBinary a op b l) (EBinary a' op b' l')
| function_like f f' : fun_like f f' -> expr_like (EFunction f) (EFunction f')
| get_like e e' p p' l l' : expr_like e e' -> N p p' -> L l l' -> expr_like (EGet e p l) (EGet e' p' l')
| get_index_like e e' i i' l l' : expr_like e e' -> expr_like i i' -> L l l' ->
    expr_like (EGetIndex e i l) (EGetIndex e' i' l')
| grouping_like e e' : expr_like e e' -> expr_like (EGrouping e) (EGrouping e')
| array_like es es' : Forall2 expr_like es es' -> expr_like (EArray es) (EArray es')
| bool_like b : expr_like (EBool b) (EBool b)
| map_like m m' : Forall2 (entry_like expr_like) m m' -> expr_like (EMap m) (EMap m')
| number_like x x' : numbers_like R x x' -> expr_like (ENumber x) (ENumber x')
| nil_like : expr_like ENil ENil
| string_like s s' : strings_like R s s' -> expr_like (EString s) (EString s')
| logical_like a a' op b b' : expr_like a a' -> expr_like b b' -> expr_like (ELogical a op b) (ELogical a' op b')
| set_like o o' p p' v v' l l' : expr_like o o' -> N p p' -> expr_like v v' -> L l l' ->
    expr_like (ESet o p v l) (ESet o' p' v' l')
| set_index_like a a' i i' v v' l l' : expr_like a a' -> expr_like i i' -> expr_like v v' -> L l l' ->
    expr_like (ESetIndex a i v l) (ESetIndex a' i' v' l')
| super_like v m m' l l' : N m m' -> L l l' -> expr_like (ESuper v m l) (ESuper v m' l')
| variable_like x x' v l l' : N x x' -> L l l' -> expr_like (EVariable x v l) (EVariable x' v l')
| unary_like op e e' l l' : expr_like e e' -> L l l' -> expr_like (EUnary op e l) (EUnary op e' l')
with class_like : class_def -> class_def -> Prop :=
| class_def_like n n' s s' ms ms' l l' : N n n' -> option_like expr_like s s' -> Forall2 named_like ms ms' -> L l l' ->
    class_like (ClassDef n s ms l) (ClassDef n' s' ms' l')
with named_like : named_fun -> named_fun -> Prop :=
| named_fun_like n n' f f' : N n n' -> fun_like f f' -> named_like (NamedFun n f) (NamedFun n' f')
with fun_like : fun_def -> fun_def -> Prop :=
| fun_def_like ps ps' b b' k k' l l' : Forall2 param_like ps ps' -> Forall2 stmt_like b b' -> kinds_like R k k' -> L l l' ->
    fun_like (FunDef ps b k l) (FunDef ps' b' k' l').

(** Errors that say the same at related places. *)
Definition error_like (W : string -> string -> Prop) (c d : cause) : Prop :=
  c_message c = c_message d /\ L (c_loc c) (c_loc d) /\ option_like W (c_token c) (c_token d).

(** Tokens of the same kind with related contents; [W] relates the texts of all tokens. *)
Definition token_like (W : string -> string -> Prop) (t u : token) : Prop :=
  t_type t = t_type u /\ L (tloc t) (tloc u) /\ W (t_lexeme t) (t_lexeme u) /\
  (t_type t = Identifier \/ t_type t = This -> N (t_lexeme t) (t_lexeme u)) /\
  option_like (numbers_like R) (t_float t) (t_float u) /\ option_like (strings_like R) (t_string t) (t_string u).

(** The key a token is, in front of a colon. *)
Definition key_of (t : token) (k : string) : Prop :=
  t_type t = Identifier /\ k = t_lexeme t \/ t_type t = TString /\ t_string t = Some k.
Definition keys_related (toks toks' : list token) : Prop :=
  forall i t t' c k k', nth_error toks i = Some t -> nth_error toks' i = Some t' ->
  nth_error toks (Datatypes.S i) = Some c -> t_type c = Colon -> key_of t k -> key_of t' k' -> keys_like R k k'.
(** What must be kept: which keys are equal, what is called [this], and what is called [init]. *)
Definition keeps (W : string -> string -> Prop) : Prop :=
  (forall a a' b b', keys_like R a a' -> keys_like R b b' -> (a = b <-> a' = b')) /\
  (forall x x', N x x' -> (x = "this" <-> x' = "this")) /\
  (forall x x', N x x' -> kinds_like R (if String.eqb x "init" then Initializer else Method)
                                       (if String.eqb x' "init" then Initializer else Method)) /\
  kinds_like R PlainFunction PlainFunction /\ kinds_like R ClassMethod ClassMethod /\
  L default_loc default_loc /\ W "=" "=" /\
  (forall x x', N x x' -> W x x') /\ (forall x x', keys_like R x x' -> W x x').
End Like.

(** What must be kept for the resolver: which names are equal, and what is called [this], [super] and [init]. *)
Definition keeps_names (R : leaves) (W : string -> string -> Prop) : Prop :=
  (forall a a' b b', names_like R a a' -> names_like R b b' -> (a = b <-> a' = b')) /\
  (forall x x', names_like R x x' ->
     (x = "this" <-> x' = "this") /\ (x = "super" <-> x' = "super") /\ (x = "init" <-> x' = "init")) /\
  (forall x x', names_like R x x' -> W x x') /\
  W "this" "this" /\ W "super" "super" /\ W "return" "return".

(** Two results: both a program of the same form, or both errors that say the same, in the same order. *)
Definition results_like (R : leaves) (W : string -> string -> Prop) {A} (Q : A -> A -> Prop)
  (x y : outcome (result A parse_error)) : Prop :=
  match x, y with
  | Done (Ok a), Done (Ok b) => Q a b
  | Done (Err c), Done (Err d) => Forall2 (error_like R W) c d
  | Panicked w, Panicked w' => w = w'
  | Diverged, Diverged | OutOfFuel, OutOfFuel => True
  | _, _ => False
  end.

(** States of the resolver whose variables have related names and the same slots. *)
Definition name_like (R : leaves) (x x' : string) : Prop :=
  names_like R x x' \/ x = "this" /\ x' = "this" \/ x = "super" /\ x' = "super".
Definition scope_like (R : leaves) : scope -> scope -> Prop :=
  Forall2 (fun a b => name_like R (fst a) (fst b) /\ snd a = snd b).
Definition state_like (R : leaves) (s s' : rstate) : Prop :=
  Forall2 (scope_like R) (scopes s) (scopes s') /\
  function_type s = function_type s' /\ class_type s = class_type s'.

(** Everything but literals and positions stays. *)
Definition any {A} (_ _ : A) : Prop := True.
Definition literals : leaves := mkLeaves eq eq any any any eq.
(** A token may be replaced by one of the same kind; names stay. *)
Definition same_but_literal (t u : token) : Prop :=
  t_type t = t_type u /\ (t_type t = Identifier \/ t_type t = This -> t_lexeme t = t_lexeme u) /\
  (t_float t = None <-> t_float u = None) /\ (t_string t = None <-> t_string u = None).
