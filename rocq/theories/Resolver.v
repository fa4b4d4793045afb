(** src/resolver.rs: the variable resolver, function by function.

    Scopes: the [Vec<HashMap<String, VarResolveState>>] is a list with the
    innermost scope first; each map is an association list (only lookup,
    insertion and the number of entries are used by the code).  Trees are
    rebuilt instead of being updated in place; on an error the tree is not
    returned ([Resolver::resolve] drops it). *)
From Verif Require Import Base F64 Token Ast.

(** src/resolver.rs:28-32 *)
Inductive defined_state : Type := UndefinedVar | DeclaredVar | DefinedVar.
(** src/resolver.rs:36-39 *)
Record var_state : Type := mkVar { v_slot : nat; v_state : defined_state }.
(** src/resolver.rs:42-47 *)
Inductive rfun_type : Type := NoFunction | RPlain | RInitializer | RMethod.
(** src/resolver.rs:50-54 *)
Inductive rclass_type : Type := NoClass | PlainClass | Subclass.

Definition scope : Type := list (string * var_state).
(** src/resolver.rs:21-25 *)
Record rstate : Type := mkR {
  scopes : list scope;
  function_type : rfun_type;
  class_type : rclass_type
}.

(** src/environment.rs:4-5 [VAR_LOC_MAX_DISTANCE_USIZE], as a binary number *)
Definition var_loc_max_distance : N := 65535.

(** [HashMap::get] *)
Fixpoint scope_get (sc : scope) (x : string) : option var_state :=
  match sc with
  | nil => None
  | (y, v) :: r => if String.eqb y x then Some v else scope_get r x
  end.
(** [HashMap::entry(x).and_modify(f).or_insert(v)] *)
Fixpoint scope_upsert (sc : scope) (x : string) (f : var_state -> var_state)
         (v : var_state) : scope :=
  match sc with
  | nil => [(x, v)]
  | (y, w) :: r => if String.eqb y x then (y, f w) :: r
                   else (y, w) :: scope_upsert r x f v
  end.

Inductive rres (A : Type) : Type :=
| ROk (a : A) (s : rstate)
| RErr (c : cause) (s : rstate)
| RPanic (why : string).
Arguments ROk {A} a s.
Arguments RErr {A} c s.
Arguments RPanic {A} why.

Definition R (A : Type) : Type := rstate -> rres A.
Definition rret {A} (a : A) : R A := fun s => ROk a s.
Definition rfail {A} (c : cause) : R A := fun s => RErr c s.
(** Sequencing with the [?] operator. *)
Definition rbind {A B} (m : R A) (f : A -> R B) : R B :=
  fun s => match m s with
           | ROk a s1 => f a s1
           | RErr c s1 => RErr c s1
           | RPanic w => RPanic w
           end.
Notation "'rlet' x <- m ;; k" := (rbind m (fun x => k))
  (at level 200, x pattern, m at level 100, k at level 200, right associativity).
Notation "'rdo' m ;; k" := (rbind m (fun _ => k))
  (at level 200, m at level 100, k at level 200, right associativity).
(** The idiom [let result = m; cleanup; result]. *)
Definition rfinally {A} (m : R A) (cleanup : rstate -> rstate) : R A :=
  fun s => match m s with
           | ROk a s1 => ROk a (cleanup s1)
           | RErr c s1 => RErr c (cleanup s1)
           | RPanic w => RPanic w
           end.
(** [for x in xs.iter_mut() { f(x)?; }] *)
Definition rmap {A B} (f : A -> R B) : list A -> R (list B) :=
  fix go l := match l with
              | nil => rret nil
              | x :: r => rlet y <- f x ;; rlet r' <- go r ;; rret (y :: r')
              end.
(** [if let Some(x) = o { f(x)?; }] *)
Definition ropt {A B} (f : A -> R B) (o : option A) : R (option B) :=
  match o with
  | None => rret None
  | Some x => rlet y <- f x ;; rret (Some y)
  end.

Definition set_scopes (l : list scope) (s : rstate) : rstate :=
  mkR l (function_type s) (class_type s).

(** src/resolver.rs:493-498 *)
Definition begin_scope : R unit :=
  fun s => if (var_loc_max_distance <=? N.of_nat (length (scopes s)))%N
           then RPanic "Too many nested lexical scopes"
           else ROk tt (set_scopes (nil :: scopes s) s).
(** src/resolver.rs:500-502 *)
Definition end_scope (s : rstate) : rstate := set_scopes (tl (scopes s)) s.
(** src/resolver.rs:504-506 *)
Definition is_in_global_scope (s : rstate) : bool := length (scopes s) =? 1.

(** src/resolver.rs:617-631 *)
Definition ensure_scope_index_limit (len : nat) (x : string) (l : source_loc)
  : R unit :=
  if (var_loc_max_distance <? N.of_nat len)%N
  then rfail (cause_at l x "Too many local variables in function.")
  else rret tt.

(** [self.scopes.first_mut()]: the global scope, last in the model's list. *)
Fixpoint update_last {A} (f : A -> A) (l : list A) : list A :=
  match l with
  | nil => nil
  | [a] => [f a]
  | a :: r => a :: update_last f r
  end.

(** src/resolver.rs:508-526 *)
Definition forward_reserve_global_var (x : string) (l : source_loc) : R nat :=
  fun s =>
    match rev (scopes s) with
    | nil => RPanic "Resolver::forward_reserve_global_var: I'm trying to look up the top-most global scope, but there are none"
    | g :: _ =>
      let slot_index := length g in
      (rdo ensure_scope_index_limit (length g) x l ;;
       match scope_get g x with
       | Some _ => fun _ => RPanic "Resolver::forward_reserve_global_var: I'm trying to forward reserve something that's already declared"
       | None => fun s1 =>
           ROk slot_index
             (set_scopes (update_last
                (fun g' => g' ++ [(x, mkVar slot_index UndefinedVar)])
                (scopes s1)) s1)
       end) s
    end.

(** src/resolver.rs:464-481, the search through the scopes; [d] is the
    distance from the innermost scope. *)
Fixpoint lookup_scopes (scs : list scope) (x : string) (d : nat)
  : option (nat * var_state) :=
  match scs with
  | nil => None
  | sc :: r => match scope_get sc x with
               | Some v => Some (d, v)
               | None => lookup_scopes r x (S d)
               end
  end.

(** src/resolver.rs:459-491 *)
Definition resolve_local_variable (x : string) (l : source_loc) : R var_loc :=
  fun s =>
    match lookup_scopes (scopes s) x 0 with
    | Some (d, v) => ROk (VarLoc (as_u16 d) (as_u8 (v_slot v))) s
    | None =>
      let len := length (scopes s) in
      (rlet slot_index <- forward_reserve_global_var x l ;;
       fun s1 =>
         if len =? 0 then RPanic "assertion failed: len > 0"
         else ROk (VarLoc (as_u16 (len - 1)) (as_u8 slot_index)) s1) s
    end.

(** src/resolver.rs:528-576; the value is what is stored in the cell. *)
Definition declare (x : string) (l : source_loc) : R slot_index :=
  fun s =>
    match scopes s with
    | nil => RPanic "Resolver::declare: I'm trying to look up the most-local scope, but there are none"
    | sc :: outer =>
      (rdo ensure_scope_index_limit (length sc) x l ;;
       fun s1 =>
         let '(slot_index, already_declared) :=
           match scope_get sc x with
           | None => (length sc, false)
           | Some v => (v_slot v, match v_state v with
                                  | UndefinedVar => false
                                  | DeclaredVar | DefinedVar => true
                                  end)
           end in
         let sc' := scope_upsert sc x
                      (fun v => match v_state v with
                                | UndefinedVar => mkVar (v_slot v) DeclaredVar
                                | DeclaredVar | DefinedVar => v
                                end)
                      (mkVar (length sc) DeclaredVar) in
         let s2 := set_scopes (sc' :: outer) s1 in
         if already_declared && negb (is_in_global_scope s2)
         then RErr (cause_at l x "Variable with this name already declared in this scope.") s2
         else ROk (SlotIndex (as_u8 slot_index)) s2) s
    end.

(** src/resolver.rs:578-607 *)
Definition define (x : string) (l : source_loc) : R unit :=
  fun s =>
    match scopes s with
    | nil => RPanic "Resolver::define: I'm trying to look up the most-local scope, but there are none"
    | sc :: outer =>
      (rdo ensure_scope_index_limit (length sc) x l ;;
       fun s1 =>
         let already_defined :=
           match scope_get sc x with
           | None => false
           | Some v => match v_state v with
                       | UndefinedVar | DeclaredVar => false
                       | DefinedVar => true
                       end
           end in
         let sc' := scope_upsert sc x
                      (fun v => match v_state v with
                                | UndefinedVar | DeclaredVar =>
                                  mkVar (v_slot v) DefinedVar
                                | DefinedVar => v
                                end)
                      (mkVar (length sc) DefinedVar) in
         let s2 := set_scopes (sc' :: outer) s1 in
         if already_defined && negb (is_in_global_scope s2)
         then RErr (cause_at l x "Variable with this name already declared in this scope.") s2
         else ROk tt s2) s
    end.

(** Fields of the state. *)
Definition rget {A} (f : rstate -> A) : R A := fun s => ROk (f s) s.
Definition set_function_type (t : rfun_type) (s : rstate) : rstate :=
  mkR (scopes s) t (class_type s).
Definition set_class_type (t : rclass_type) (s : rstate) : rstate :=
  mkR (scopes s) (function_type s) t.
Definition rmodify (f : rstate -> rstate) : R unit := fun s => ROk tt (f s).

(** src/resolver.rs:158-183, the checks of [Stmt::Return] *)
Definition is_nil_literal (e : expr) : bool :=
  match e with ENil => true | _ => false end.
Definition check_return (e : expr) (l : source_loc) : R unit :=
  rlet ft <- rget function_type ;;
  match ft with
  | NoFunction =>
    rfail (cause_at l "return" "Cannot return from top-level code.")
  | RInitializer =>
    if is_nil_literal e then rret tt
    else rfail (cause_at l "return" "Cannot return a value from an initializer.")
  | RPlain | RMethod => rret tt
  end.

(** src/resolver.rs:289-309, the checks of [Expr::Super] *)
Definition check_super (l : source_loc) : R unit :=
  rlet ct <- rget class_type ;;
  match ct with
  | NoClass => rfail (cause_at l "super" "Cannot use 'super' outside of a class.")
  | PlainClass => rfail (cause_at l "super" "Cannot use 'super' in a class with no superclass.")
  | Subclass => rret tt
  end.

(** src/resolver.rs:323-349, the checks of [Expr::Variable] *)
Definition check_this (x : string) (l : source_loc) : R unit :=
  rlet ct <- rget class_type ;;
  match ct with
  | NoClass => if String.eqb x "this"
               then rfail (cause_at l "this" "Cannot use 'this' outside of a class.")
               else rret tt
  | PlainClass | Subclass => rret tt
  end.
Definition check_own_initializer (x : string) (l : source_loc) : R unit :=
  fun s =>
    match scopes s with
    | nil => RPanic "Resolver::resolve_expression: last scope to be present"
    | sc :: _ =>
      match scope_get sc x with
      | None => ROk tt s
      | Some v =>
        match v_state v with
        | DefinedVar | UndefinedVar => ROk tt s
        | DeclaredVar => RErr (cause_at l x "Cannot read local variable in its own initializer.") s
        end
      end
    end.

(** src/resolver.rs:367-381, the self-inheritance check of [resolve_class] *)
Definition check_self_inheritance (name : string) (super : option expr)
  : R unit :=
  match super with
  | Some (EVariable id _ l) =>
    if String.eqb id name
    then rfail (cause_at l id "A class cannot inherit from itself.")
    else rret tt
  | _ => rret tt
  end.

(** src/resolver.rs:402-406: the kind in which a method is resolved *)
Definition method_type (name : string) : rfun_type :=
  if String.eqb name "init" then RInitializer else RMethod.

(** src/resolver.rs:101-210 [resolve_statement], 212-359 [resolve_expression],
    361-424 [resolve_class], 426-457 [resolve_function]. *)
Fixpoint resolve_statement (st : stmt) : R stmt :=
  match st with
  | SBlock b =>
    rdo begin_scope ;;
    rfinally (rlet b' <- rmap resolve_statement b ;; rret (SBlock b'))
             end_scope
  | SBreak l => rret (SBreak l)
  | SClass c =>
    rlet enclosing <- rget class_type ;;
    rdo rmodify (set_class_type
                   (match c with
                    | ClassDef _ (Some _) _ _ => Subclass
                    | ClassDef _ None _ _ => PlainClass
                    end)) ;;
    rfinally (rlet c' <- resolve_class c ;; rret (SClass c'))
             (set_class_type enclosing)
  | SContinue l => rret (SContinue l)
  | SExpression e => rlet e' <- resolve_expression e ;; rret (SExpression e')
  | SFun (NamedFun x f) =>
    rdo define x (match f with FunDef _ _ _ l => l end) ;;
    rlet f' <- resolve_function f RPlain ;;
    rret (SFun (NamedFun x f'))
  | SIf c t e =>
    rlet c' <- resolve_expression c ;;
    rlet t' <- resolve_statement t ;;
    rlet e' <- ropt resolve_statement e ;;
    rret (SIf c' t' e')
  | SPrint e => rlet e' <- resolve_expression e ;; rret (SPrint e')
  | SReturn e l =>
    rdo check_return e l ;;
    rlet e' <- resolve_expression e ;;
    rret (SReturn e' l)
  | SVar x _ e l =>
    rlet i <- declare x l ;;
    rlet e' <- resolve_expression e ;;
    rdo define x l ;;
    rret (SVar x i e' l)
  | SWhile c b =>
    rlet c' <- resolve_expression c ;;
    rlet b' <- resolve_statement b ;;
    rret (SWhile c' b')
  | SWhileIncrement c b i =>
    rlet c' <- resolve_expression c ;;
    rlet b' <- resolve_statement b ;;
    rlet i' <- resolve_expression i ;;
    rret (SWhileIncrement c' b' i')
  end
with resolve_expression (ex : expr) : R expr :=
  match ex with
  | EAssign x _ e l =>
    rlet e' <- resolve_expression e ;;
    rlet v <- resolve_local_variable x l ;;
    rret (EAssign x v e' l)
  | EBinary a op b l =>
    rlet a' <- resolve_expression a ;;
    rlet b' <- resolve_expression b ;;
    rret (EBinary a' op b' l)
  | ECall f args l =>
    rlet f' <- resolve_expression f ;;
    rlet args' <- rmap resolve_expression args ;;
    rret (ECall f' args' l)
  | EFunction f => rlet f' <- resolve_function f RPlain ;; rret (EFunction f')
  | EGet e p l => rlet e' <- resolve_expression e ;; rret (EGet e' p l)
  | EGetIndex e i l =>
    rlet e' <- resolve_expression e ;;
    rlet i' <- resolve_expression i ;;
    rret (EGetIndex e' i' l)
  | EGrouping e => rlet e' <- resolve_expression e ;; rret (EGrouping e')
  | EArray es => rlet es' <- rmap resolve_expression es ;; rret (EArray es')
  | EBool b => rret (EBool b)
  | EMap m =>
    rlet m' <- rmap (fun kv => match kv with
                               | (k, e) => rlet e' <- resolve_expression e ;;
                                           rret (k, e')
                               end) m ;;
    rret (EMap m')
  | ENil => rret ENil
  | ENumber x => rret (ENumber x)
  | EString x => rret (EString x)
  | ELogical a op b =>
    rlet a' <- resolve_expression a ;;
    rlet b' <- resolve_expression b ;;
    rret (ELogical a' op b')
  | ESet o p v l =>
    rlet o' <- resolve_expression o ;;
    rlet v' <- resolve_expression v ;;
    rret (ESet o' p v' l)
  | ESetIndex a i v l =>
    rlet a' <- resolve_expression a ;;
    rlet i' <- resolve_expression i ;;
    rlet v' <- resolve_expression v ;;
    rret (ESetIndex a' i' v' l)
  | ESuper _ m l =>
    rdo check_super l ;;
    rlet v <- resolve_local_variable "super" l ;;
    rret (ESuper v m l)
  | EUnary op e l => rlet e' <- resolve_expression e ;; rret (EUnary op e' l)
  | EVariable x _ l =>
    rdo check_this x l ;;
    rdo check_own_initializer x l ;;
    rlet v <- resolve_local_variable x l ;;
    rret (EVariable x v l)
  end
with resolve_class (c : class_def) : R class_def :=
  match c with
  | ClassDef name super methods l =>
    rdo define name l ;;
    rdo check_self_inheritance name super ;;
    rlet super' <-
      ropt (fun e => rlet e' <- resolve_expression e ;;
                     rdo begin_scope ;;
                     (fun s => match define "super" l s with
                               | ROk _ s1 => ROk e' s1
                               | RErr c s1 => RErr c (end_scope s1)
                               | RPanic w => RPanic w
                               end)) super ;;
    rdo begin_scope ;;
    rlet methods' <-
      rfinally (rdo define "this" l ;;
                rmap (fun m => match m with
                               | NamedFun n f =>
                                 rlet f' <- resolve_function f (method_type n) ;;
                                 rret (NamedFun n f')
                               end) methods)
               (fun s => let s1 := end_scope s in
                         match super with
                         | Some _ => end_scope s1
                         | None => s1
                         end) ;;
    rret (ClassDef name super' methods' l)
  end
with resolve_function (f : fun_def) (t : rfun_type) : R fun_def :=
  match f with
  | FunDef ps body ft l =>
    rlet enclosing <- rget function_type ;;
    rdo rmodify (set_function_type t) ;;
    rdo begin_scope ;;
    rfinally (rdo rmap (fun p => define (p_name p) (p_loc p)) ps ;;
              rlet body' <- rmap resolve_statement body ;;
              rret (FunDef ps body' ft l))
             (fun s => set_function_type enclosing (end_scope s))
  end.

(** src/resolver.rs:57-80 [Resolver::new] with the native identifiers of
    src/value.rs:9-13 (none). *)
Definition all_native_ids : list string := nil.
Definition resolver_new : outcome rstate :=
  match (rdo begin_scope ;;
         rmap (fun x => define x default_loc) all_native_ids)
        (mkR nil NoFunction NoClass) with
  | ROk _ s => Done s
  | RErr _ _ => Panicked "Resolver::new(): defining native function failed"
  | RPanic w => Panicked w
  end.

(** src/resolver.rs:82-99 [Resolver::resolve]: the loop, then the verdict.
    Every top-level statement is visited; errors are collected. *)
Fixpoint resolve_loop (l : list stmt) (done : list stmt) (errs : list cause)
         (s : rstate) : outcome (list stmt * list cause * rstate) :=
  match l with
  | nil => Done (done, errs, s)
  | st :: r =>
    match resolve_statement st s with
    | ROk st' s1 => resolve_loop r (done ++ [st']) errs s1
    | RErr c s1 => resolve_loop r done (errs ++ [c]) s1
    | RPanic w => Panicked w
    end
  end.
Definition resolver_resolve (l : list stmt) (s : rstate)
  : outcome (result (list stmt) parse_error * rstate) :=
  olet r <- resolve_loop l nil nil s ;;
  let '(stmts, errs, s1) := r in
  Done (match errs with nil => Ok stmts | _ :: _ => Err errs end, s1).

(** src/resolver.rs:12-16 *)
Definition resolve (l : list stmt) : outcome (result (list stmt) parse_error) :=
  olet s <- resolver_new ;;
  olet r <- resolver_resolve l s ;;
  Done (fst r).
