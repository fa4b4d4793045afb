(** The checks that variable resolution makes, in the order in which it makes
    them, and the error that each gives rise to: an exact specification of
    which errors a program has.  On top of the contexts of SpecResolve.v,
    independent of the resolver model. *)
From Verif Require Import Base F64 Token Ast SpecResolve.

(** ** Checks, each with the context in which it is made *)
Inductive check : Type :=
| Opens                                          (* a scope is opened *)
| Defines (x : string) (l : source_loc)          (* a function, class or parameter *)
| Declares (x : string) (l : source_loc)         (* a variable, before its initializer *)
| Completes (x : string) (l : source_loc)        (* a variable, after its initializer *)
| Returns (e : expr) (l : source_loc)
| Inherits (x : string) (super : option expr)
| Reads (x : string) (l : source_loc)
| Assigns (x : string) (l : source_loc)
| UsesSuper (l : source_loc).

Fixpoint param_checks (c : ctx) (ps : list param) : list (ctx * check) :=
  match ps with
  | nil => nil
  | p :: r => (c, Defines (p_name p) (p_loc p)) :: param_checks (declare_names [p_name p] c) r
  end.

Fixpoint checks (c : ctx) (st : stmt) : list (ctx * check) :=
  match st with
  | SBlock b => (c, Opens) :: thread checks (open_scope nil c) b
  | SBreak _ | SContinue _ => nil
  | SClass d => class_checks c d
  | SExpression e | SPrint e => expr_checks c e
  | SReturn e l => (c, Returns e l) :: expr_checks c e
  | SFun (NamedFun x f) =>
    (c, Defines x (match f with FunDef _ _ _ l => l end)) ::
    fun_checks (in_function InFunction (declare_names [x] c)) f
  | SIf e t o =>
    expr_checks c e ++ checks c t ++
    match o with
    | Some o => checks (declare_names (declared t) c) o
    | None => nil
    end
  | SVar x _ e l =>
    (c, Declares x l) :: expr_checks (initialising x c) e ++ [(initialising x c, Completes x l)]
  | SWhile e b => expr_checks c e ++ checks c b
  | SWhileIncrement e b i =>
    expr_checks c e ++ checks c b ++ expr_checks (declare_names (declared b) c) i
  end
with expr_checks (c : ctx) (ex : expr) : list (ctx * check) :=
  match ex with
  | EAssign x _ e l => expr_checks c e ++ [(c, Assigns x l)]
  | ECall f args _ => expr_checks c f ++ flat_map (expr_checks c) args
  | EBinary a _ b _ | ELogical a _ b => expr_checks c a ++ expr_checks c b
  | EFunction f => fun_checks (in_function InFunction c) f
  | EGet e _ _ | EGrouping e | EUnary _ e _ => expr_checks c e
  | EGetIndex e i _ => expr_checks c e ++ expr_checks c i
  | EArray es => flat_map (expr_checks c) es
  | EMap m => flat_map (fun kv => match kv with (_, e) => expr_checks c e end) m
  | EBool _ | ENumber _ | ENil | EString _ => nil
  | ESuper _ _ l => [(c, UsesSuper l)]
  | EVariable x _ l => [(c, Reads x l)]
  | ESet o _ v _ => expr_checks c o ++ expr_checks c v
  | ESetIndex a i v _ => expr_checks c a ++ expr_checks c i ++ expr_checks c v
  end
with class_checks (c : ctx) (d : class_def) : list (ctx * check) :=
  match d with
  | ClassDef x super methods l =>
    let c1 := declare_names [x] c in
    (c, Defines x l) :: (c1, Inherits x super) ::
    match super with
    | None =>
      let c2 := in_class InClass c1 in
      (c2, Opens) ::
      flat_map (fun m => match m with
        | NamedFun n f => fun_checks (in_function (method_ctx n) (open_scope ["this"] c2)) f
        end) methods
    | Some e =>
      let c2 := in_class InSubclass c1 in
      let c3 := open_scope ["super"] c2 in
      expr_checks c2 e ++ (c2, Opens) :: (c3, Opens) ::
      flat_map (fun m => match m with
        | NamedFun n f => fun_checks (in_function (method_ctx n) (open_scope ["this"] c3)) f
        end) methods
    end
  end
with fun_checks (c : ctx) (f : fun_def) : list (ctx * check) :=
  match f with
  | FunDef ps body _ _ =>
    (c, Opens) :: param_checks (open_scope nil c) ps ++
    thread checks (open_scope (map p_name ps) c) body
  end.

(** ** What is known of the global scope: the names that have a slot, in slot
    order; those declared so far; those declared but not readable. *)
Record world : Type := mkWorld {
  w_table : list string;
  w_known : list string;
  w_blocked : list string
}.
(** The context of a top-level statement. *)
Definition top (w : world) : ctx := mkCtx AtTop OutsideClass (w_blocked w) nil (w_known w).

(** ** The outcome of a check *)
Inductive failure : Type :=
| Error (e : cause)
| TooDeep.       (* more than 65534 nested local scopes: a panic *)

(** A scope that has too many names takes no more. *)
Definition full (names : list string) : bool := (scope_limit <? N.of_nat (List.length names))%N.
Definition no_room (x : string) (l : source_loc) : option failure :=
  Some (Error (cause_at l x "Too many local variables in function.")).
(** The names in the current scope. *)
Definition scope_names (G : list string) (c : ctx) : list string :=
  match c_locals c with nil => G | sc :: _ => sc end.
(** A name that is found nowhere becomes a global. *)
Definition find_name (G : list string) (c : ctx) (x : string) (l : source_loc) : option failure :=
  if in_locals x c || mem x G then None
  else if full G then no_room x l else None.
Definition introduce (G : list string) (c : ctx) (x : string) (l : source_loc) : option failure :=
  if full (scope_names G c) then no_room x l
  else match c_locals c with
       | nil => None
       | sc :: _ =>
         if mem x sc
         then Some (Error (cause_at l x "Variable with this name already declared in this scope."))
         else None
       end.

Definition fault (G : list string) (cc : ctx * check) : option failure :=
  match cc with
  | (c, Opens) => if (N.of_nat (List.length (c_locals c)) <? 65534)%N then None else Some TooDeep
  | (c, Defines x l) => introduce G c x l
  | (c, Declares x l) => introduce G c x l
  | (c, Completes x l) => if full (scope_names G c) then no_room x l else None
  | (c, Returns e l) =>
    match c_fun c, e with
    | AtTop, _ => Some (Error (cause_at l "return" "Cannot return from top-level code."))
    | InInit, ENil => None
    | InInit, _ => Some (Error (cause_at l "return" "Cannot return a value from an initializer."))
    | InFunction, _ => None
    end
  | (_, Inherits x (Some (EVariable y _ l))) =>
    if String.eqb y x then Some (Error (cause_at l y "A class cannot inherit from itself.")) else None
  | (_, Inherits _ _) => None
  | (c, Reads x l) =>
    if match c_class c with OutsideClass => String.eqb x "this" | _ => false end
    then Some (Error (cause_at l "this" "Cannot use 'this' outside of a class."))
    else if mem x (c_blocked c)
    then Some (Error (cause_at l x "Cannot read local variable in its own initializer."))
    else find_name G c x l
  | (c, Assigns x l) => find_name G c x l
  | (c, UsesSuper l) =>
    match c_class c with
    | OutsideClass => Some (Error (cause_at l "super" "Cannot use 'super' outside of a class."))
    | InClass => Some (Error (cause_at l "super" "Cannot use 'super' in a class with no superclass."))
    | InSubclass => find_name G c "super" l
    end
  end.

(** The global scope after a check that succeeds. *)
Definition add_name (x : string) (w : world) : world :=
  mkWorld (add_all (w_table w) [x]) (w_known w) (w_blocked w).
Definition make_known (x : string) (w : world) : world :=
  mkWorld (w_table w) (w_known w ++ [x]) (filter (fun y => negb (mem y [x])) (w_blocked w)).
Definition block (x : string) (w : world) : world :=
  mkWorld (w_table w) (w_known w) (if mem x (w_known w) then w_blocked w else x :: w_blocked w).
Definition mentioned (c : ctx) (x : string) (w : world) : world :=
  if in_locals x c then w else add_name x w.
Definition global (c : ctx) : bool := match c_locals c with nil => true | _ => false end.

Definition after (w : world) (cc : ctx * check) : world :=
  match cc with
  | (c, Defines x _) => if global c then make_known x (add_name x w) else w
  | (c, Declares x _) => if global c then block x (add_name x w) else w
  | (c, Completes x _) => if global c then make_known x w else w
  | (c, Reads x _) | (c, Assigns x _) => mentioned c x w
  | (c, UsesSuper _) => mentioned c "super" w
  | (_, Opens) | (_, Returns _ _) | (_, Inherits _ _) => w
  end.

(** ** Statements, programs, sessions *)

(** Checks are made until one fails. *)
Fixpoint run_checks (w : world) (l : list (ctx * check)) : option failure * world :=
  match l with
  | nil => (None, w)
  | cc :: r =>
    match fault (w_table w) cc with
    | Some f => (Some f, w)
    | None => run_checks (after w cc) r
    end
  end.
(** The errors of a program, at most one for each statement; none if it is
    nested too deeply. *)
Fixpoint program_causes (w : world) (l : list stmt) : option (list cause * world) :=
  match l with
  | nil => Some (nil, w)
  | st :: r =>
    match run_checks w (checks (top w) st) with
    | (Some TooDeep, _) => None
    | (Some (Error e), w1) =>
      match program_causes w1 r with
      | Some (es, w2) => Some (e :: es, w2)
      | None => None
      end
    | (None, w1) => program_causes w1 r
    end
  end.
(** Programs one after the other: the errors of each. *)
Fixpoint session_causes (w : world) (ps : list (list stmt)) : option (list (list cause) * world) :=
  match ps with
  | nil => Some (nil, w)
  | p :: r =>
    match program_causes w p with
    | Some (es, w1) =>
      match session_causes w1 r with
      | Some (ess, w2) => Some (es :: ess, w2)
      | None => None
      end
    | None => None
    end
  end.
Definition new_world : world := mkWorld nil nil nil.
