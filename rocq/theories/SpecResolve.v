(** Specification of variable resolution, as conditions on the nodes of a tree.

    [nodes c st] lists the nodes of [st], each with its static context: the
    enclosing function and class, the names declared so far in every enclosing
    local scope, and the names that are just being initialised.  What a valid
    program is ([allowed]) and what its variable slots have to be
    ([addressed]) are conditions on single nodes.  Independent of the resolver
    model. *)
From Verif Require Import Base F64 Token Ast.

(** ** Contexts *)
Inductive fun_ctx : Type := AtTop | InInit | InFunction.
Inductive class_ctx : Type := OutsideClass | InClass | InSubclass.
Record ctx : Type := mkCtx {
  c_fun : fun_ctx;
  c_class : class_ctx;
  c_blocked : list string;          (* may not be read directly here *)
  c_locals : list (list string);    (* local scopes, innermost first; the names
                                       of a scope in declaration order *)
  c_globals : list string           (* names declared so far at top level *)
}.

(** The names of the current scope. *)
Definition known (c : ctx) : list string :=
  match c_locals c with nil => c_globals c | sc :: _ => sc end.
Definition mem (x : string) (l : list string) : bool :=
  if in_dec String.string_dec x l then true else false.
(** The names [xs] have been declared in the current scope. *)
Definition declare_names (xs : list string) (c : ctx) : ctx :=
  let blocked := filter (fun x => negb (mem x xs)) (c_blocked c) in
  match c_locals c with
  | nil => mkCtx (c_fun c) (c_class c) blocked nil (c_globals c ++ xs)
  | sc :: r => mkCtx (c_fun c) (c_class c) blocked ((sc ++ xs) :: r) (c_globals c)
  end.
(** Inside the initializer of [x]: [x] exists already, but may not be read
    (unless it is a global declared before). *)
Definition initialising (x : string) (c : ctx) : ctx :=
  let blocked := if mem x (known c) then c_blocked c else x :: c_blocked c in
  match c_locals c with
  | nil => mkCtx (c_fun c) (c_class c) blocked nil (c_globals c)
  | sc :: r => mkCtx (c_fun c) (c_class c) blocked ((sc ++ [x]) :: r) (c_globals c)
  end.
Definition open_scope (names : list string) (c : ctx) : ctx :=
  mkCtx (c_fun c) (c_class c) nil (names :: c_locals c) (c_globals c).
Definition in_function (k : fun_ctx) (c : ctx) : ctx :=
  mkCtx k (c_class c) (c_blocked c) (c_locals c) (c_globals c).
Definition in_class (k : class_ctx) (c : ctx) : ctx :=
  mkCtx (c_fun c) k (c_blocked c) (c_locals c) (c_globals c).

(** The names a statement declares in the scope it stands in. *)
Fixpoint declared (st : stmt) : list string :=
  match st with
  | SVar x _ _ _ => [x]
  | SFun (NamedFun x _) => [x]
  | SClass (ClassDef x _ _ _) => [x]
  | SIf _ t e => declared t ++ match e with Some e => declared e | None => nil end
  | SWhile _ b => declared b
  | SWhileIncrement _ b _ => declared b
  | _ => nil
  end.

(** ** Nodes, in the order in which they are resolved *)
Inductive node : Type :=
| NStmt (st : stmt)
| NExpr (e : expr)
| NFun (f : fun_def).

(** A sequence of statements: each sees the names declared before it. *)
Definition thread {A} (f : ctx -> stmt -> list A) : ctx -> list stmt -> list A :=
  fix go c l := match l with
                | nil => nil
                | st :: r => f c st ++ go (declare_names (declared st) c) r
                end.

Definition method_ctx (name : string) : fun_ctx :=
  if String.eqb name "init" then InInit else InFunction.

Fixpoint nodes (c : ctx) (st : stmt) : list (ctx * node) :=
  (c, NStmt st) ::
  match st with
  | SBlock b => thread nodes (open_scope nil c) b
  | SBreak _ | SContinue _ => nil
  | SClass d => class_nodes c d
  | SExpression e | SPrint e | SReturn e _ => expr_nodes c e
  | SFun (NamedFun x f) =>
    fun_nodes (in_function InFunction (declare_names [x] c)) f
  | SIf e t o =>
    expr_nodes c e ++ nodes c t ++
    match o with
    | Some o => nodes (declare_names (declared t) c) o
    | None => nil
    end
  | SVar x _ e _ => expr_nodes (initialising x c) e
  | SWhile e b => expr_nodes c e ++ nodes c b
  | SWhileIncrement e b i =>
    expr_nodes c e ++ nodes c b ++ expr_nodes (declare_names (declared b) c) i
  end
with expr_nodes (c : ctx) (ex : expr) : list (ctx * node) :=
  match ex with
  | EAssign _ _ e _ => expr_nodes c e
  | ECall f args _ => expr_nodes c f ++ flat_map (expr_nodes c) args
  | EBinary a _ b _ | ELogical a _ b => expr_nodes c a ++ expr_nodes c b
  | EFunction f => fun_nodes (in_function InFunction c) f
  | EGet e _ _ | EGrouping e | EUnary _ e _ => expr_nodes c e
  | EGetIndex e i _ => expr_nodes c e ++ expr_nodes c i
  | EArray es => flat_map (expr_nodes c) es
  | EMap m => flat_map (fun kv => match kv with (_, e) => expr_nodes c e end) m
  | EBool _ | ENumber _ | ENil | EString _ | ESuper _ _ _ | EVariable _ _ _ => nil
  | ESet o _ v _ => expr_nodes c o ++ expr_nodes c v
  | ESetIndex a i v _ => expr_nodes c a ++ expr_nodes c i ++ expr_nodes c v
  end ++ [(c, NExpr ex)]
with class_nodes (c : ctx) (d : class_def) : list (ctx * node) :=
  match d with
  | ClassDef x super methods _ =>
    let c1 := declare_names [x] c in
    match super with
    | None =>
      flat_map (fun m => match m with
        | NamedFun n f => fun_nodes (in_function (method_ctx n)
            (open_scope ["this"] (in_class InClass c1))) f
        end) methods
    | Some e =>
      expr_nodes (in_class InSubclass c1) e ++
      flat_map (fun m => match m with
        | NamedFun n f => fun_nodes (in_function (method_ctx n)
            (open_scope ["this"] (open_scope ["super"] (in_class InSubclass c1)))) f
        end) methods
    end
  end
with fun_nodes (c : ctx) (f : fun_def) : list (ctx * node) :=
  (c, NFun f) ::
  match f with
  | FunDef ps body _ _ => thread nodes (open_scope (map p_name ps) c) body
  end.

Definition program_nodes (c : ctx) (l : list stmt) : list (ctx * node) := thread nodes c l.

(** ** The static rules *)

(** Returns (C40). *)
Definition return_rule (cn : ctx * node) : Prop :=
  match cn with
  | (c, NStmt (SReturn e _)) => c_fun c <> AtTop /\ (c_fun c = InInit -> e = ENil)
  | _ => True
  end.
(** [this] and [super] (C41). *)
Definition this_rule (cn : ctx * node) : Prop :=
  match cn with
  | (c, NExpr (EVariable x _ _)) => x = "this" -> c_class c <> OutsideClass
  | (c, NExpr (ESuper _ _ _)) => c_class c = InSubclass
  | _ => True
  end.
(** No name is declared twice in a local scope (C42). *)
Definition redeclaration_rule (cn : ctx * node) : Prop :=
  match cn with
  | (_, NStmt (SBlock b)) => NoDup (flat_map declared b)
  | (_, NFun (FunDef ps b _ _)) => NoDup (map p_name ps ++ flat_map declared b)
  | _ => True
  end.
(** Names being initialised are not read (C43). *)
Definition initializer_rule (cn : ctx * node) : Prop :=
  match cn with
  | (c, NExpr (EVariable x _ _)) => ~ In x (c_blocked c)
  | _ => True
  end.
(** No class inherits from itself (C47). *)
Definition inheritance_rule (cn : ctx * node) : Prop :=
  match cn with
  | (_, NStmt (SClass (ClassDef x (Some (EVariable y _ _)) _ _))) => y <> x
  | _ => True
  end.
Definition allowed (cn : ctx * node) : Prop :=
  return_rule cn /\ this_rule cn /\ redeclaration_rule cn /\
  initializer_rule cn /\ inheritance_rule cn.

(** ** Slots *)

(** [x] is the [k]-th name of [l] (and not among the earlier ones). *)
Definition first_at (l : list string) (k : nat) (x : string) : Prop :=
  nth_error l k = Some x /\ ~ In x (firstn k l).

(** With the local scopes [locals] and the global names [G], in slot order,
    [v] is the location of the innermost [x]. *)
Definition resolves_to (G : list string) (locals : list (list string)) (x : string)
           (v : var_loc) : Prop :=
  (exists inner sc outer k,
     locals = inner ++ sc :: outer /\ (forall sc', In sc' inner -> ~ In x sc') /\
     first_at sc k x /\
     v = VarLoc (N.of_nat (List.length inner)) (N.of_nat k mod 256)) \/
  ((forall sc, In sc locals -> ~ In x sc) /\
   exists k, first_at G k x /\
     v = VarLoc (N.of_nat (List.length locals)) (N.of_nat k mod 256)).

Definition addressed (G : list string) (cn : ctx * node) : Prop :=
  match cn with
  | (c, NExpr (EVariable x v _)) => resolves_to G (c_locals c) x v
  | (c, NExpr (EAssign x v _ _)) => resolves_to G (c_locals c) x v
  | (c, NExpr (ESuper v _ _)) => resolves_to G (c_locals c) "super" v
  | (c, NStmt (SVar x s _ _)) =>
    exists k, s = SlotIndex (N.of_nat k mod 256) /\
      match c_locals c with
      | nil => first_at G k x
      | sc :: _ => first_at (sc ++ [x]) k x
      end
  | _ => True
  end.

(** The global names that a node refers to or declares. *)
Definition in_locals (x : string) (c : ctx) : bool := existsb (mem x) (c_locals c).
Definition mention (cn : ctx * node) : list string :=
  match cn with
  | (c, NExpr (EVariable x _ _)) | (c, NExpr (EAssign x _ _ _)) =>
    if in_locals x c then nil else [x]
  | (c, NExpr (ESuper _ _ _)) => if in_locals "super" c then nil else ["super"]
  | (c, NStmt (SVar x _ _ _)) | (c, NStmt (SFun (NamedFun x _)))
  | (c, NStmt (SClass (ClassDef x _ _ _))) =>
    match c_locals c with nil => [x] | _ => nil end
  | _ => nil
  end.
(** New names go to the end of the table. *)
Fixpoint add_all (G : list string) (xs : list string) : list string :=
  match xs with
  | nil => G
  | x :: r => add_all (if mem x G then G else G ++ [x]) r
  end.

(** ** Limits *)
Definition scope_limit : N := 65535.
(** The scope has at most 65535 names. *)
Definition size_rule (cn : ctx * node) : Prop :=
  match cn with
  | (_, NStmt (SBlock b)) => (N.of_nat (List.length (flat_map declared b)) <= scope_limit)%N
  | (_, NFun (FunDef ps b _ _)) =>
    (N.of_nat (List.length (map p_name ps ++ flat_map declared b)) <= scope_limit)%N
  | _ => True
  end.
(** At most 65534 local scopes are open at once. *)
Definition depth_rule (cn : ctx * node) : Prop :=
  let depth c := N.of_nat (List.length (c_locals c)) in
  match cn with
  | (c, NStmt (SBlock _)) => (depth c < 65534)%N
  | (c, NFun _) => (depth c < 65534)%N
  | (c, NStmt (SClass (ClassDef _ (Some _) _ _))) => (depth c < 65533)%N
  | (c, NStmt (SClass (ClassDef _ None _ _))) => (depth c < 65534)%N
  | _ => True
  end.

(** The number of scopes that are open at the same time inside a tree. *)
Definition deepest {A} (f : A -> N) : list A -> N :=
  fix go l := match l with nil => 0%N | x :: r => N.max (f x) (go r) end.
Fixpoint nesting (st : stmt) : N :=
  match st with
  | SBlock b => (1 + deepest nesting b)%N
  | SBreak _ | SContinue _ => 0%N
  | SClass c => class_nesting c
  | SExpression e | SPrint e | SReturn e _ | SVar _ _ e _ => expr_nesting e
  | SFun (NamedFun _ f) => fun_nesting f
  | SIf e t o => N.max (expr_nesting e)
                   (N.max (nesting t) (match o with Some o => nesting o | None => 0%N end))
  | SWhile e b => N.max (expr_nesting e) (nesting b)
  | SWhileIncrement e b i => N.max (expr_nesting e) (N.max (nesting b) (expr_nesting i))
  end
with expr_nesting (ex : expr) : N :=
  match ex with
  | EAssign _ _ e _ | EGet e _ _ | EGrouping e | EUnary _ e _ => expr_nesting e
  | ECall f args _ => N.max (expr_nesting f) (deepest expr_nesting args)
  | EBinary a _ b _ | ELogical a _ b | EGetIndex a b _ | ESet a _ b _ =>
    N.max (expr_nesting a) (expr_nesting b)
  | EFunction f => fun_nesting f
  | EArray es => deepest expr_nesting es
  | EMap m => deepest (fun kv => match kv with (_, e) => expr_nesting e end) m
  | EBool _ | ENumber _ | ENil | EString _ | ESuper _ _ _ | EVariable _ _ _ => 0%N
  | ESetIndex a i v _ =>
    N.max (expr_nesting a) (N.max (expr_nesting i) (expr_nesting v))
  end
with class_nesting (c : class_def) : N :=
  match c with
  | ClassDef _ super methods _ =>
    let inner := deepest (fun m => match m with NamedFun _ f => fun_nesting f end) methods in
    match super with
    | None => (1 + inner)%N
    | Some e => N.max (expr_nesting e) (2 + inner)
    end
  end
with fun_nesting (f : fun_def) : N :=
  match f with FunDef _ b _ _ => (1 + deepest nesting b)%N end.

(** ** Errors *)

(** [x] occurs twice in [l]. *)
Definition repeated (x : string) (l : list string) : Prop :=
  exists a b d, l = a ++ x :: b ++ x :: d.
Definition too_many (n : nat) : Prop := (scope_limit < N.of_nat n)%N.

(** The error that the names [names] of one local scope give rise to. *)
Definition scope_error (names : list string) (e : cause) : Prop :=
  exists x l,
    (repeated x names /\
     e = cause_at l x "Variable with this name already declared in this scope.") \/
    (too_many (List.length names) /\
     e = cause_at l x "Too many local variables in function.").

(** The node breaks a rule, and [e] is the error for it. *)
Definition blames (e : cause) (cn : ctx * node) : Prop :=
  match cn with
  | (c, NStmt (SReturn r l)) =>
    (c_fun c = AtTop /\ e = cause_at l "return" "Cannot return from top-level code.") \/
    (c_fun c = InInit /\ r <> ENil /\
     e = cause_at l "return" "Cannot return a value from an initializer.")
  | (c, NExpr (EVariable x _ l)) =>
    (x = "this" /\ c_class c = OutsideClass /\
     e = cause_at l "this" "Cannot use 'this' outside of a class.") \/
    (In x (c_blocked c) /\
     e = cause_at l x "Cannot read local variable in its own initializer.")
  | (c, NExpr (ESuper _ _ l)) =>
    (c_class c = OutsideClass /\
     e = cause_at l "super" "Cannot use 'super' outside of a class.") \/
    (c_class c = InClass /\
     e = cause_at l "super" "Cannot use 'super' in a class with no superclass.")
  | (_, NStmt (SBlock b)) => scope_error (flat_map declared b) e
  | (_, NFun (FunDef ps b _ _)) => scope_error (map p_name ps ++ flat_map declared b) e
  | (_, NStmt (SClass (ClassDef x (Some (EVariable y _ l)) _ _))) =>
    y = x /\ e = cause_at l x "A class cannot inherit from itself."
  | _ => False
  end.

(** ** Trees without their slots *)
Fixpoint erase (st : stmt) : stmt :=
  match st with
  | SBlock b => SBlock (map erase b)
  | SBreak l => SBreak l
  | SClass c => SClass (erase_class c)
  | SContinue l => SContinue l
  | SExpression e => SExpression (erase_expr e)
  | SFun (NamedFun x f) => SFun (NamedFun x (erase_fun f))
  | SIf c t e => SIf (erase_expr c) (erase t) (option_map erase e)
  | SPrint e => SPrint (erase_expr e)
  | SReturn e l => SReturn (erase_expr e) l
  | SVar x _ e l => SVar x slot_placeholder (erase_expr e) l
  | SWhile c b => SWhile (erase_expr c) (erase b)
  | SWhileIncrement c b i => SWhileIncrement (erase_expr c) (erase b) (erase_expr i)
  end
with erase_expr (ex : expr) : expr :=
  match ex with
  | EAssign x _ e l => EAssign x var_placeholder (erase_expr e) l
  | ECall f args l => ECall (erase_expr f) (map erase_expr args) l
  | EBinary a op b l => EBinary (erase_expr a) op (erase_expr b) l
  | EFunction f => EFunction (erase_fun f)
  | EGet e p l => EGet (erase_expr e) p l
  | EGetIndex e i l => EGetIndex (erase_expr e) (erase_expr i) l
  | EGrouping e => EGrouping (erase_expr e)
  | EArray es => EArray (map erase_expr es)
  | EBool b => EBool b
  | EMap m => EMap (map (fun kv => match kv with (k, e) => (k, erase_expr e) end) m)
  | ENumber x => ENumber x
  | ENil => ENil
  | EString s => EString s
  | ELogical a op b => ELogical (erase_expr a) op (erase_expr b)
  | ESet o p v l => ESet (erase_expr o) p (erase_expr v) l
  | ESetIndex a i v l => ESetIndex (erase_expr a) (erase_expr i) (erase_expr v) l
  | ESuper _ m l => ESuper var_placeholder m l
  | EVariable x _ l => EVariable x var_placeholder l
  | EUnary op e l => EUnary op (erase_expr e) l
  end
with erase_class (c : class_def) : class_def :=
  match c with
  | ClassDef x super methods l =>
    ClassDef x (option_map erase_expr super)
      (map (fun m => match m with NamedFun n f => NamedFun n (erase_fun f) end) methods) l
  end
with erase_fun (f : fun_def) : fun_def :=
  match f with
  | FunDef ps body ft l => FunDef ps (map erase body) ft l
  end.
