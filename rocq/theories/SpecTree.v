(** What the trees of accepted programs look like.  Independent of the parser
    model and of the grammar.

    [parts st] lists the statements, expressions, classes and functions of a
    tree, itself included; the properties are conditions on single parts. *)
From Verif Require Import Base F64 Token Ast.

Inductive part : Type :=
| PStmt (st : stmt)
| PExpr (e : expr)
| PClass (c : class_def)
| PFun (f : fun_def).

Fixpoint parts (st : stmt) : list part :=
  PStmt st ::
  match st with
  | SBlock b => flat_map parts b
  | SBreak _ | SContinue _ => nil
  | SClass c => class_parts c
  | SExpression e | SPrint e | SReturn e _ | SVar _ _ e _ => expr_parts e
  | SFun (NamedFun _ f) => fun_parts f
  | SIf c t o => expr_parts c ++ parts t ++ match o with Some e => parts e | None => nil end
  | SWhile c b => expr_parts c ++ parts b
  | SWhileIncrement c b i => expr_parts c ++ parts b ++ expr_parts i
  end
with expr_parts (e : expr) : list part :=
  PExpr e ::
  match e with
  | EAssign _ _ a _ | EGet a _ _ | EGrouping a | EUnary _ a _ => expr_parts a
  | ECall f args _ => expr_parts f ++ flat_map expr_parts args
  | EBinary a _ b _ | ELogical a _ b | EGetIndex a b _ | ESet a _ b _ =>
    expr_parts a ++ expr_parts b
  | ESetIndex a b c _ => expr_parts a ++ expr_parts b ++ expr_parts c
  | EFunction f => fun_parts f
  | EArray es => flat_map expr_parts es
  | EMap m => flat_map (fun kv => match kv with (_, a) => expr_parts a end) m
  | EBool _ | ENumber _ | ENil | EString _ | ESuper _ _ _ | EVariable _ _ _ => nil
  end
with class_parts (c : class_def) : list part :=
  PClass c ::
  match c with
  | ClassDef _ s ms _ =>
    match s with Some e => expr_parts e | None => nil end ++
    flat_map (fun n => match n with NamedFun _ f => fun_parts f end) ms
  end
with fun_parts (f : fun_def) : list part :=
  PFun f :: match f with FunDef _ body _ _ => flat_map parts body end.

Definition program_parts (l : list stmt) : list part := flat_map parts l.

(** ** Precedence *)
(** How tightly the top operator of an expression binds. *)
Definition strength (e : expr) : nat :=
  match e with
  | EAssign _ _ _ _ | ESet _ _ _ _ | ESetIndex _ _ _ _ => 0
  | ELogical _ LOr _ => 1
  | ELogical _ LAnd _ => 2
  | EBinary _ (BEqual | BNotEqual) _ _ => 3
  | EBinary _ (BLess | BLessEqual | BGreater | BGreaterEqual) _ _ => 4
  | EBinary _ (BPlus | BMinus) _ _ => 5
  | EBinary _ (BMultiply | BDivide) _ _ => 6
  | EUnary _ _ _ => 7
  | ECall _ _ _ | EGet _ _ _ | EGetIndex _ _ _ => 8
  | _ => 9                            (* literals, names, brackets of all kinds *)
  end.
(** Operands bind at least as tightly as the operator; the right operand of a
    binary operator more tightly (left associativity).  The operand of [=] on
    the right may be anything (right associativity). *)
Definition operands_bind (e : expr) : Prop :=
  match e with
  | EBinary a _ b _ | ELogical a _ b => strength e <= strength a /\ strength e < strength b
  | EUnary _ a _ => 7 <= strength a
  | ECall a _ _ | EGet a _ _ | EGetIndex a _ _ => 8 <= strength a
  | ESet a _ _ _ | ESetIndex a _ _ _ => 8 <= strength a
  | _ => True
  end.
Definition precedence_ok (p : part) : Prop :=
  match p with PExpr e => operands_bind e | _ => True end.

(** ** Limits *)
Definition within_limits (p : part) : Prop :=
  match p with
  | PExpr (ECall _ args _) => List.length args <= 255
  | PFun (FunDef ps _ _ _) => List.length ps <= 255
  | _ => True
  end.

(** ** Map literals *)
Definition distinct_keys (p : part) : Prop :=
  match p with PExpr (EMap m) => NoDup (map fst m) | _ => True end.

(** ** Assignments *)
Definition assigns_name (p : part) : Prop :=
  match p with PExpr (EAssign x _ _ _) => x <> "this" | _ => True end.

(** ** Kinds of functions *)
Definition kind (f : fun_def) : fun_type := match f with FunDef _ _ k _ => k end.
Definition member_ok (n : named_fun) : Prop :=
  match n with
  | NamedFun x f => kind f = ClassMethod \/ (kind f = Initializer /\ x = "init") \/
                    (kind f = Method /\ x <> "init")
  end.
Definition kinds_ok (p : part) : Prop :=
  match p with
  | PStmt (SFun (NamedFun _ f)) | PExpr (EFunction f) => kind f = PlainFunction
  | PClass (ClassDef _ _ ms _) => Forall member_ok ms
  | _ => True
  end.

(** ** Superclasses are names *)
Definition superclass_ok (p : part) : Prop :=
  match p with
  | PClass (ClassDef _ (Some e) _ _) => exists x v l, e = EVariable x v l
  | _ => True
  end.

(** ** No variable is located yet *)
Definition unlocated (p : part) : Prop :=
  match p with
  | PExpr (EVariable _ v _ | EAssign _ v _ _ | ESuper v _ _) => v = VarLoc 0 0
  | PStmt (SVar _ s _ _) => s = SlotIndex 255
  | _ => True
  end.

(** ** An else belongs to the nearest if *)
(** A statement that an else could still follow. *)
Fixpoint open_if (st : stmt) : bool :=
  match st with
  | SIf _ _ None => true
  | SIf _ _ (Some e) => open_if e
  | SWhile _ b | SWhileIncrement _ b _ => open_if b
  | _ => false
  end.
Definition else_nearest (p : part) : Prop :=
  match p with PStmt (SIf _ t (Some _)) => open_if t = false | _ => True end.

(** ** Branches are single statements *)
(** What may stand where the language asks for a statement. *)
Definition is_declaration (st : stmt) : bool :=
  match st with SClass _ | SFun _ | SVar _ _ _ _ => true | _ => false end.
Definition branches_ok (p : part) : Prop :=
  match p with
  | PStmt (SIf _ t None) => is_declaration t = false
  | PStmt (SIf _ t (Some e)) => is_declaration t = false /\ is_declaration e = false
  | PStmt (SWhile _ b) | PStmt (SWhileIncrement _ b _) => is_declaration b = false
  | _ => True
  end.

(** ** Loops *)
(** The break and continue statements outside every loop body of the tree. *)
Fixpoint strays (st : stmt) : list stmt :=
  match st with
  | SBreak _ | SContinue _ => [st]
  | SBlock b => flat_map strays b
  | SClass c => class_strays c
  | SExpression e | SPrint e | SReturn e _ | SVar _ _ e _ => expr_strays e
  | SFun (NamedFun _ f) => fun_strays f
  | SIf c t o => expr_strays c ++ strays t ++ match o with Some e => strays e | None => nil end
  | SWhile c _ => expr_strays c
  | SWhileIncrement c _ i => expr_strays c ++ expr_strays i
  end
with expr_strays (e : expr) : list stmt :=
  match e with
  | EAssign _ _ a _ | EGet a _ _ | EGrouping a | EUnary _ a _ => expr_strays a
  | ECall f args _ => expr_strays f ++ flat_map expr_strays args
  | EBinary a _ b _ | ELogical a _ b | EGetIndex a b _ | ESet a _ b _ =>
    expr_strays a ++ expr_strays b
  | ESetIndex a b c _ => expr_strays a ++ expr_strays b ++ expr_strays c
  | EFunction f => fun_strays f
  | EArray es => flat_map expr_strays es
  | EMap m => flat_map (fun kv => match kv with (_, a) => expr_strays a end) m
  | EBool _ | ENumber _ | ENil | EString _ | ESuper _ _ _ | EVariable _ _ _ => nil
  end
with class_strays (c : class_def) : list stmt :=
  match c with
  | ClassDef _ s ms _ =>
    match s with Some e => expr_strays e | None => nil end ++
    flat_map (fun n => match n with NamedFun _ f => fun_strays f end) ms
  end
with fun_strays (f : fun_def) : list stmt :=
  match f with FunDef _ body _ _ => flat_map strays body end.
(** Every break and continue is in the body of a loop. *)
Definition loops_enclose (l : list stmt) : Prop := flat_map strays l = nil.

(** ** Locations *)
Definition binary_token (op : binary_op) : token_type :=
  match op with
  | BPlus => Plus | BMinus => Minus | BMultiply => Star | BDivide => Slash
  | BEqual => EqualEqual | BNotEqual => BangEqual
  | BLess => Less | BLessEqual => LessEqual | BGreater => Greater | BGreaterEqual => GreaterEqual
  end.
Definition unary_token (op : unary_op) : token_type :=
  match op with UMinus => Minus | UNot => Bang end.
Section Locations.
Variable toks : list token.
(** [l] is where a token of type [k] is. *)
Definition at_kind (k : token_type) (l : source_loc) : Prop :=
  exists t, In t toks /\ t_type t = k /\ tloc t = l.
(** [l] is where the name [x] is. *)
Definition at_name (x : string) (l : source_loc) : Prop :=
  exists t, In t toks /\ t_type t = Identifier /\ t_lexeme t = x /\ tloc t = l.
Definition fun_loc (f : fun_def) : source_loc := match f with FunDef _ _ _ l => l end.
Definition located (p : part) : Prop :=
  match p with
  | PStmt (SBreak l) => at_kind Break l
  | PStmt (SContinue l) => at_kind Continue l
  | PStmt (SReturn _ l) => at_kind Return l
  | PStmt (SVar x _ _ l) => at_name x l
  | PStmt (SFun (NamedFun x f)) => at_name x (fun_loc f)
  | PStmt (SWhile _ _) => (exists l, at_kind While l) \/ exists l, at_kind For l
  | PStmt (SWhileIncrement _ _ _) => exists l, at_kind For l
  | PStmt _ => True
  | PClass (ClassDef x s ms l) =>
    at_name x l /\ match s with Some (EVariable y _ l') => at_name y l' | _ => True end /\
    Forall (fun n => match n with NamedFun m f => at_name m (fun_loc f) end) ms
  | PFun (FunDef ps _ _ _) => Forall (fun p => at_name (p_name p) (p_loc p)) ps
  | PExpr e =>
    match e with
    | EVariable x _ l =>
      exists t, In t toks /\ (t_type t = Identifier \/ t_type t = This) /\ t_lexeme t = x /\ tloc t = l
    | EAssign x _ _ l =>
      at_kind Equal l /\ exists t, In t toks /\ (t_type t = Identifier \/ t_type t = This) /\ t_lexeme t = x
    | ESet _ p _ l => at_kind Equal l /\ exists l', at_name p l'
    | ESetIndex _ _ _ l => at_kind Equal l
    | EBinary _ op _ l => at_kind (binary_token op) l
    | EUnary op _ l => at_kind (unary_token op) l
    | EGet _ p l => at_kind Dot l /\ exists l', at_name p l'
    | EGetIndex _ _ l => at_kind LeftBracket l
    | ESuper _ m l => at_kind Super l /\ exists l', at_name m l'
    | ECall _ _ l => exists t, In t toks /\ tloc t = l   (* the parenthesis or the first argument *)
    | EFunction f => at_kind Fun (fun_loc f)
    | ENumber x => exists t, In t toks /\ t_type t = Number /\ t_float t = Some x
    | EString s => exists t, In t toks /\ t_type t = TString /\ t_string t = Some s
    | EMap m => Forall (fun kv => (exists l, at_name (fst kv) l) \/
        exists t, In t toks /\ t_type t = TString /\ t_string t = Some (fst kv)) m
    | EGrouping _ | EArray _ | EBool _ | ENil | ELogical _ _ _ => True
    end
  end.
End Locations.

(** ** All conditions together *)
Definition well_formed_part (p : part) : Prop :=
  (precedence_ok p /\ within_limits p /\ distinct_keys p /\ assigns_name p) /\
  (kinds_ok p /\ superclass_ok p /\ unlocated p /\ else_nearest p /\ branches_ok p).
Definition well_formed (l : list stmt) : Prop :=
  Forall well_formed_part (program_parts l) /\ loops_enclose l.
