(** Specification: trees with other names, and programs that are resolved again. *)
From Verif Require Import Base F64 Token Ast Resolver.

(** Other names: a different one for every name.  The names of [this] and [super] are not chosen by the program,
    and errors mention the keyword [return] in the place of a name. *)
Definition renaming (r : string -> string) : Prop :=
  (forall x y, r x = r y -> x = y) /\ r "this" = "this" /\ r "super" = "super" /\ r "return" = "return".

(** The tree with other names for its variables, functions, classes and parameters, given by [r], and other names for
    properties, methods and keys of maps and other texts of strings, given by [q]. *)
Fixpoint renamed (r q : string -> string) (st : stmt) : stmt :=
  match st with
  | SBlock b => SBlock (map (renamed r q) b)
  | SBreak l => SBreak l
  | SClass c => SClass (renamed_class r q c)
  | SContinue l => SContinue l
  | SExpression e => SExpression (renamed_expr r q e)
  | SFun (NamedFun x f) => SFun (NamedFun (r x) (renamed_fun r q f))
  | SIf c t e => SIf (renamed_expr r q c) (renamed r q t) (option_map (renamed r q) e)
  | SPrint e => SPrint (renamed_expr r q e)
  | SReturn e l => SReturn (renamed_expr r q e) l
  | SVar x s e l => SVar (r x) s (renamed_expr r q e) l
  | SWhile c b => SWhile (renamed_expr r q c) (renamed r q b)
  | SWhileIncrement c b i => SWhileIncrement (renamed_expr r q c) (renamed r q b) (renamed_expr r q i)
  end
with renamed_expr (r q : string -> string) (e : expr) : expr :=
  match e with
  | EAssign x v e l => EAssign (r x) v (renamed_expr r q e) l
  | EBinary a op b l => EBinary (renamed_expr r q a) op (renamed_expr r q b) l
  | ECall f args l => ECall (renamed_expr r q f) (map (renamed_expr r q) args) l
  | EFunction f => EFunction (renamed_fun r q f)
  | EGet e p l => EGet (renamed_expr r q e) (q p) l
  | EGetIndex e i l => EGetIndex (renamed_expr r q e) (renamed_expr r q i) l
  | EGrouping e => EGrouping (renamed_expr r q e)
  | EArray es => EArray (map (renamed_expr r q) es)
  | EBool b => EBool b
  | EMap m => EMap (map (fun kv => match kv with (k, e) => (q k, renamed_expr r q e) end) m)
  | ENil => ENil
  | ENumber x => ENumber x
  | EString x => EString (q x)
  | ELogical a op b => ELogical (renamed_expr r q a) op (renamed_expr r q b)
  | ESet o p v l => ESet (renamed_expr r q o) (q p) (renamed_expr r q v) l
  | ESetIndex a i v l => ESetIndex (renamed_expr r q a) (renamed_expr r q i) (renamed_expr r q v) l
  | ESuper v m l => ESuper v (q m) l
  | EUnary op e l => EUnary op (renamed_expr r q e) l
  | EVariable x v l => EVariable (r x) v l
  end
with renamed_class (r q : string -> string) (c : class_def) : class_def :=
  match c with
  | ClassDef n s ms l =>
    ClassDef (r n) (option_map (renamed_expr r q) s)
      (map (fun m => match m with NamedFun x f => NamedFun (q x) (renamed_fun r q f) end) ms) l
  end
with renamed_fun (r q : string -> string) (f : fun_def) : fun_def :=
  match f with
  | FunDef ps b ft l => FunDef (map (fun p => mkParam (r (p_name p)) (p_loc p)) ps) (map (renamed r q) b) ft l
  end.

(** The method named [init] is the only one with a meaning of its own. *)
Definition keeps_init (q : string -> string) : Prop := forall x, q x = "init" <-> x = "init".

Section Rename.
Variables r q : string -> string.
(** An error with the other name. *)
Definition renamed_cause (c : cause) : cause := mkCause (c_loc c) (option_map r (c_token c)) (c_message c).
(** The state of the resolver with the other names. *)
Definition renamed_state (s : rstate) : rstate :=
  mkR (map (map (fun xv => match xv with (x, v) => (r x, v) end)) (scopes s)) (function_type s) (class_type s).
Definition renamed_result (x : outcome (result (list stmt) parse_error)) : outcome (result (list stmt) parse_error) :=
  match x with
  | Done (Ok l) => Done (Ok (map (renamed r q) l))
  | Done (Err cs) => Done (Err (map renamed_cause cs))
  | y => y
  end.
End Rename.

(** From the state [s] programs were resolved, all without errors, up to the state [s2]. *)
Inductive only_accepted : rstate -> rstate -> Prop :=
| nothing_more : forall s, only_accepted s s
| one_more : forall s l l' s1 s2,
    resolver_resolve l s = Done (Ok l', s1) -> only_accepted s1 s2 -> only_accepted s s2.
