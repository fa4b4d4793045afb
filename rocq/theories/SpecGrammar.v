(** The grammar of the language, over tokens.  Independent of the parser model.

    [derives b N i v r]: the nonterminal [N] derives a prefix of the tokens [i],
    leaving [r]; [v] is the tree built.  [b] tells whether the place is inside
    a loop.  The few side conditions on [r] (one or two tokens of lookahead)
    make the grammar unambiguous. *)
From Verif Require Import Base F64 Token Ast.

(** The first token of [i] has one of the types [ks]. *)
Definition starts (ks : list token_type) (i : list token) : Prop :=
  match i with nil => False | t :: _ => In (t_type t) ks end.
(** An optional token of type [k], taken whenever it is there. *)
Inductive optional (k : token_type) : list token -> list token -> Prop :=
| opt_some : forall t i, t_type t = k -> optional k (t :: i) i
| opt_none : forall i, ~ starts [k] i -> optional k i i.
(** A required token. *)
Definition token_then (k : token_type) (i r : list token) : Prop :=
  exists t, i = t :: r /\ t_type t = k.
(** An opening parenthesis, abutting or not. *)
Definition paren_then (i r : list token) : Prop :=
  token_then LeftParen i r \/ token_then LeftParenAbutting i r.
(** A name. *)
Definition name_then (t : token) (i r : list token) : Prop :=
  i = t :: r /\ t_type t = Identifier.

(** The binary operators of each precedence level, weakest first, all
    left-associative. *)
Definition binary (op : binary_op) : option (expr -> source_loc -> expr -> expr) :=
  Some (fun a l b => EBinary a op b l).
Definition operator (level : nat) (k : token_type) : option (expr -> source_loc -> expr -> expr) :=
  match level, k with
  | 0, Or => Some (fun a _ b => ELogical a LOr b)
  | 1, And => Some (fun a _ b => ELogical a LAnd b)
  | 2, EqualEqual => binary BEqual
  | 2, BangEqual => binary BNotEqual
  | 3, Less => binary BLess
  | 3, LessEqual => binary BLessEqual
  | 3, Greater => binary BGreater
  | 3, GreaterEqual => binary BGreaterEqual
  | 4, Plus => binary BPlus
  | 4, Minus => binary BMinus
  | 5, Star => binary BMultiply
  | 5, Slash => binary BDivide
  | _, _ => None
  end.
Definition top_level : nat := 6.
Definition no_operator (level : nat) (i : list token) : Prop :=
  match i with nil => True | t :: _ => operator level (t_type t) = None end.
Definition prefix_operator (k : token_type) : option unary_op :=
  match k with Bang => Some UNot | Minus => Some UMinus | _ => None end.

(** Tokens that can start an argument of a call without parentheses. *)
Definition argument_start : list token_type :=
  [TFalse; TTrue; Nil; Number; TString; Identifier; Fun; LeftParen; LeftBrace; Super].
(** Tokens that continue a call. *)
Definition call_continues : list token_type :=
  [Dot; LeftParenAbutting; LeftBracket] ++ argument_start.

(** Keys of map literals. *)
Definition key_of (t : token) (k : string) : Prop :=
  (t_type t = Identifier /\ k = t_lexeme t) \/ (t_type t = TString /\ t_string t = Some k).
(** A map entry starts here. *)
Definition entry_here (i : list token) : Prop :=
  exists t c r, i = t :: c :: r /\ In (t_type t) [Identifier; TString] /\ t_type c = Colon.
(** Between the entries of a map: a comma, or a line end followed by another
    entry or the closing brace. *)
Definition separator (i r : list token) : Prop :=
  token_then Comma i r \/
  (token_then Terminator i r /\ (entry_here r \/ starts [RightBrace] r)).

(** What an assignment means. *)
Definition assigned (target value : expr) (l : source_loc) : option expr :=
  match target with
  | EVariable x _ _ =>
    if String.eqb x "this" then None else Some (EAssign x var_placeholder value l)
  | EGet o p _ => Some (ESet o p value l)
  | EGetIndex a n _ => Some (ESetIndex a n value l)
  | _ => None
  end.

Definition max_parameters : nat := 255.

(** The opening of a block, with the token that closes it. *)
Inductive opens : token_type -> list token -> list token -> Prop :=
| opens_indent : forall t u i, t_type t = Terminator -> t_type u = Indent ->
    opens Outdent (t :: u :: i) i
| opens_brace : forall t i, t_type t = LeftBrace -> opens RightBrace (t :: i) i.

Definition method_kind (is_class : bool) (name : string) : fun_type :=
  if is_class then ClassMethod
  else if String.eqb name "init" then Initializer else Method.
Definition with_kind (k : fun_type) (f : fun_def) : fun_def :=
  match f with FunDef ps b _ l => FunDef ps b k l end.

(** The tree of a for loop. *)
Definition for_tree (init : option stmt) (cond : expr) (inc : option expr) (body : stmt) : stmt :=
  let loop := match inc with
              | None => SWhile cond body
              | Some e => SWhileIncrement cond body e
              end in
  match init with None => loop | Some d => SBlock [d; loop] end.

Inductive sym : Type :=
| Expression
| Target                     (* what may stand before [=] *)
| Binary (level : nat)
| BinaryTail (level : nat) (left : expr)
| Unary
| Call
| CallTail (callee : expr)
| Primary
| Arguments                  (* one or more, with commas *)
| Elements                   (* one or more, perhaps with a final comma *)
| Entries                    (* of a map *)
| Parameters                 (* one or more *)
| Function (l : source_loc)  (* parameters and body *)
| Block                      (* with its delimiters *)
| Statements (closing : token_type)
| VarDeclaration (for_init : bool)
| Methods (closing : token_type)
| Branch                     (* of an if, or a loop body *)
| ForInit | Condition | Increment   (* of a for loop *)
| ExpressionStatement
| Statement
| Declaration
| Program.

(** The values of nonterminals. *)
Inductive val : Type :=
| VE (e : expr)
| VEs (es : list expr)
| VM (m : list (string * expr))
| VPs (ps : list param)
| VF (f : fun_def)
| VS (st : stmt)
| VO (o : option stmt)
| VOE (o : option expr)
| VSs (l : list stmt)
| VMs (l : list named_fun).

Section Grammar.
(** The last expression statement may lack its line end (in the REPL). *)
Variable trailing : bool.

Inductive derives : bool -> sym -> list token -> val -> list token -> Prop :=
(** *** Expressions *)
| d_expression : forall b i e r,
    derives b Target i (VE e) r -> ~ starts [Equal] r ->
    derives b Expression i (VE e) r
| d_assignment : forall b i e t r1 e2 r e',
    derives b Target i (VE e) (t :: r1) -> t_type t = Equal ->
    derives b Expression r1 (VE e2) r -> assigned e e2 (tloc t) = Some e' ->
    derives b Expression i (VE e') r
| d_target : forall b i e r,
    derives b (Binary 0) i (VE e) r -> derives b Target i (VE e) r
| d_target_indented : forall b i i1 e r1 r2 r,
    token_then Indent i i1 -> derives b (Binary 0) i1 (VE e) r1 ->
    optional Terminator r1 r2 -> token_then Outdent r2 r ->
    derives b Target i (VE e) r
| d_binary : forall b n i e1 r1 e r,
    n < top_level ->
    derives b (Binary (S n)) i (VE e1) r1 -> derives b (BinaryTail n e1) r1 (VE e) r ->
    derives b (Binary n) i (VE e) r
| d_binary_top : forall b i e r,
    derives b Unary i (VE e) r -> derives b (Binary top_level) i (VE e) r
| d_tail_end : forall b n e i,
    no_operator n i -> derives b (BinaryTail n e) i (VE e) i
| d_tail_more : forall b n e t i f e2 r1 e' r,
    operator n (t_type t) = Some f ->
    derives b (Binary (S n)) i (VE e2) r1 ->
    derives b (BinaryTail n (f e (tloc t) e2)) r1 (VE e') r ->
    derives b (BinaryTail n e) (t :: i) (VE e') r
| d_unary : forall b t i op e r,
    prefix_operator (t_type t) = Some op -> derives b Unary i (VE e) r ->
    derives b Unary (t :: i) (VE (EUnary op e (tloc t))) r
| d_unary_call : forall b i e r,
    derives b Call i (VE e) r -> derives b Unary i (VE e) r
| d_call : forall b i e1 r1 e r,
    derives b Primary i (VE e1) r1 -> derives b (CallTail e1) r1 (VE e) r ->
    derives b Call i (VE e) r
| d_call_end : forall b e i,
    ~ starts call_continues i -> derives b (CallTail e) i (VE e) i
| d_call_get : forall b e t n i r1 e' r,
    t_type t = Dot -> name_then n i r1 ->
    derives b (CallTail (EGet e (t_lexeme n) (tloc t))) r1 (VE e') r ->
    derives b (CallTail e) (t :: i) (VE e') r
| d_call_none : forall b e t i r1 e' r,
    t_type t = LeftParenAbutting -> token_then RightParen i r1 ->
    derives b (CallTail (ECall e nil (tloc t))) r1 (VE e') r ->
    derives b (CallTail e) (t :: i) (VE e') r
| d_call_paren : forall b e t i es r1 r2 e' r,
    t_type t = LeftParenAbutting -> derives b Arguments i (VEs es) r1 ->
    List.length es <= max_parameters -> token_then RightParen r1 r2 ->
    derives b (CallTail (ECall e es (tloc t))) r2 (VE e') r ->
    derives b (CallTail e) (t :: i) (VE e') r
| d_call_index : forall b e t i e1 r1 r2 e' r,
    t_type t = LeftBracket -> derives b Expression i (VE e1) r1 ->
    token_then RightBracket r1 r2 ->
    derives b (CallTail (EGetIndex e e1 (tloc t))) r2 (VE e') r ->
    derives b (CallTail e) (t :: i) (VE e') r
| d_call_juxtaposed : forall b e t i es r1 e' r,
    In (t_type t) argument_start -> derives b Arguments (t :: i) (VEs es) r1 ->
    List.length es <= max_parameters ->
    derives b (CallTail (ECall e es (tloc t))) r1 (VE e') r ->
    derives b (CallTail e) (t :: i) (VE e') r
| d_arguments_one : forall b i e r,
    derives b Expression i (VE e) r -> ~ starts [Comma] r ->
    derives b Arguments i (VEs [e]) r
| d_arguments_more : forall b i e r1 r2 es r,
    derives b Expression i (VE e) r1 -> token_then Comma r1 r2 ->
    derives b Arguments r2 (VEs es) r ->
    derives b Arguments i (VEs (e :: es)) r
(** *** Primary expressions *)
| d_false : forall b t i, t_type t = TFalse -> derives b Primary (t :: i) (VE (EBool false)) i
| d_true : forall b t i, t_type t = TTrue -> derives b Primary (t :: i) (VE (EBool true)) i
| d_nil : forall b t i, t_type t = Nil -> derives b Primary (t :: i) (VE ENil) i
| d_number : forall b t x i, t_type t = Number -> t_float t = Some x ->
    derives b Primary (t :: i) (VE (ENumber x)) i
| d_string : forall b t x i, t_type t = TString -> t_string t = Some x -> ~ starts [Colon] i ->
    derives b Primary (t :: i) (VE (EString x)) i
| d_variable : forall b t i, In (t_type t) [Identifier; This] -> ~ starts [Colon] i ->
    derives b Primary (t :: i) (VE (EVariable (t_lexeme t) var_placeholder (tloc t))) i
| d_bare_map : forall b i m r,
    entry_here i -> derives b Entries i (VM m) r -> NoDup (map fst m) ->
    derives b Primary i (VE (EMap m)) r
| d_this_map : forall b t c i,        (* cannot be part of a program: nothing is used up *)
    t_type t = This -> t_type c = Colon ->
    derives b Primary (t :: c :: i) (VE (EMap nil)) (t :: c :: i)
| d_function : forall b t i f r,
    t_type t = Fun -> derives b (Function (tloc t)) i (VF f) r ->
    derives b Primary (t :: i) (VE (EFunction f)) r
| d_grouping : forall b i i1 e r1 r,
    paren_then i i1 -> derives b Expression i1 (VE e) r1 -> token_then RightParen r1 r ->
    derives b Primary i (VE (EGrouping e)) r
| d_brace_map : forall b i i1 m r1 r,
    token_then LeftBrace i i1 -> derives b Entries i1 (VM m) r1 -> NoDup (map fst m) ->
    token_then RightBrace r1 r ->
    derives b Primary i (VE (EMap m)) r
| d_array_empty : forall b i i1 r,
    token_then LeftBracket i i1 -> token_then RightBracket i1 r ->
    derives b Primary i (VE (EArray nil)) r
| d_array : forall b i i1 es r1 r,
    token_then LeftBracket i i1 -> derives b Elements i1 (VEs es) r1 ->
    token_then RightBracket r1 r ->
    derives b Primary i (VE (EArray es)) r
| d_super : forall b t i r1 n r,
    t_type t = Super -> token_then Dot i r1 -> name_then n r1 r ->
    derives b Primary (t :: i) (VE (ESuper var_placeholder (t_lexeme n) (tloc t))) r
| d_elements_one : forall b i e r,
    derives b Expression i (VE e) r -> ~ starts [Comma] r ->
    derives b Elements i (VEs [e]) r
| d_elements_comma : forall b i e r1 r,
    derives b Expression i (VE e) r1 -> token_then Comma r1 r -> starts [RightBracket] r ->
    derives b Elements i (VEs [e]) r
| d_elements_more : forall b i e r1 r2 es r,
    derives b Expression i (VE e) r1 -> token_then Comma r1 r2 ->
    derives b Elements r2 (VEs es) r ->
    derives b Elements i (VEs (e :: es)) r
| d_entries_none : forall b i, ~ entry_here i -> derives b Entries i (VM nil) i
| d_entries_last : forall b t c i k e r,
    key_of t k -> t_type c = Colon -> derives b Expression i (VE e) r ->
    (forall r', ~ separator r r') ->
    derives b Entries (t :: c :: i) (VM [(k, e)]) r
| d_entries_more : forall b t c i k e r1 r2 m r,
    key_of t k -> t_type c = Colon -> derives b Expression i (VE e) r1 ->
    separator r1 r2 -> derives b Entries r2 (VM m) r ->
    derives b Entries (t :: c :: i) (VM ((k, e) :: m)) r
(** *** Functions and blocks *)
| d_parameters_one : forall b n i r,
    name_then n i r -> ~ starts [Comma] r ->
    derives b Parameters i (VPs [mkParam (t_lexeme n) (tloc n)]) r
| d_parameters_more : forall b n i r1 r2 ps r,
    name_then n i r1 -> token_then Comma r1 r2 -> derives b Parameters r2 (VPs ps) r ->
    derives b Parameters i (VPs (mkParam (t_lexeme n) (tloc n) :: ps)) r
| d_function_none : forall b l i i1 i2 body r,
    paren_then i i1 -> token_then RightParen i1 i2 -> derives b Block i2 (VSs body) r ->
    derives b (Function l) i (VF (FunDef nil body PlainFunction l)) r
| d_function_some : forall b l i i1 ps i2 i3 body r,
    paren_then i i1 -> derives b Parameters i1 (VPs ps) i2 ->
    List.length ps <= max_parameters -> token_then RightParen i2 i3 ->
    derives b Block i3 (VSs body) r ->
    derives b (Function l) i (VF (FunDef ps body PlainFunction l)) r
| d_block : forall b k i i1 l r,
    opens k i i1 -> derives b (Statements k) i1 (VSs l) r ->
    derives b Block i (VSs l) r
| d_statements_end : forall b k i r,
    token_then k i r -> derives b (Statements k) i (VSs nil) r
| d_statements_more : forall b k i st r1 l r,
    derives b Declaration i (VS st) r1 -> derives b (Statements k) r1 (VSs l) r ->
    derives b (Statements k) i (VSs (st :: l)) r
(** *** Declarations *)
| d_class : forall b i i1 n i2 k i3 ms r,
    token_then Class i i1 -> name_then n i1 i2 -> opens k i2 i3 ->
    derives b (Methods k) i3 (VMs ms) r ->
    derives b Declaration i (VS (SClass (ClassDef (t_lexeme n) None ms (tloc n)))) r
| d_subclass : forall b i i1 n i2 i3 s i4 k i5 ms r,
    token_then Class i i1 -> name_then n i1 i2 -> token_then Less i2 i3 ->
    name_then s i3 i4 -> opens k i4 i5 ->
    derives b (Methods k) i5 (VMs ms) r ->
    derives b Declaration i
      (VS (SClass (ClassDef (t_lexeme n)
        (Some (EVariable (t_lexeme s) var_placeholder (tloc s))) ms (tloc n)))) r
| d_methods_end : forall b k i r,
    token_then k i r -> derives b (Methods k) i (VMs nil) r
| d_methods_more : forall b k i n i1 f r1 ms r,
    name_then n i i1 -> derives b (Function (tloc n)) i1 (VF f) r1 ->
    derives b (Methods k) r1 (VMs ms) r ->
    derives b (Methods k) i
      (VMs (NamedFun (t_lexeme n) (with_kind (method_kind false (t_lexeme n)) f) :: ms)) r
| d_methods_class : forall b k i i0 n i1 f r1 ms r,
    token_then Class i i0 ->
    name_then n i0 i1 -> derives b (Function (tloc n)) i1 (VF f) r1 ->
    derives b (Methods k) r1 (VMs ms) r ->
    derives b (Methods k) i
      (VMs (NamedFun (t_lexeme n) (with_kind (method_kind true (t_lexeme n)) f) :: ms)) r
| d_fun : forall b i i1 n i2 f r,
    token_then Fun i i1 -> name_then n i1 i2 -> derives b (Function (tloc n)) i2 (VF f) r ->
    derives b Declaration i (VS (SFun (NamedFun (t_lexeme n) f))) r
| d_var : forall b i i1 st r,
    token_then Var i i1 -> derives b (VarDeclaration false) i1 (VS st) r ->
    derives b Declaration i (VS st) r
| d_var_none : forall b (for_init : bool) n i i1 r,
    name_then n i i1 -> token_then (if for_init then Semicolon else Terminator) i1 r ->
    derives b (VarDeclaration for_init) i
      (VS (SVar (t_lexeme n) slot_placeholder ENil (tloc n))) r
| d_var_init : forall b (for_init : bool) n i i1 i2 i3 e r1 r,
    name_then n i i1 -> token_then Equal i1 i2 -> optional Terminator i2 i3 ->
    derives b Expression i3 (VE e) r1 ->
    (if for_init then token_then Semicolon r1 r
     else token_then Terminator r1 r \/
          (* after an indented or braced initializer the line end is optional *)
          (starts [Indent; LeftBrace] i3 /\ ~ starts [Terminator] r1 /\ r = r1)) ->
    derives b (VarDeclaration for_init) i
      (VS (SVar (t_lexeme n) slot_placeholder e (tloc n))) r
| d_statement : forall b i st r,
    derives b Statement i (VS st) r -> derives b Declaration i (VS st) r
(** *** Statements *)
| d_expression_statement : forall b i st r,
    ~ starts [LeftBrace] i ->         (* a brace opens a block here, not a map *)
    derives b ExpressionStatement i (VS st) r -> derives b Statement i (VS st) r
| d_expression_line : forall b i e r1 r,
    derives b Expression i (VE e) r1 -> token_then Terminator r1 r ->
    derives b ExpressionStatement i (VS (SExpression e)) r
| d_expression_trailing : forall b i e r,
    derives b Expression i (VE e) r -> trailing = true -> starts [Eof] r ->
    derives b ExpressionStatement i (VS (SExpression e)) r
| d_break : forall t i r,
    t_type t = Break -> token_then Terminator i r ->
    derives true Statement (t :: i) (VS (SBreak (tloc t))) r
| d_continue : forall t i r,
    t_type t = Continue -> token_then Terminator i r ->
    derives true Statement (t :: i) (VS (SContinue (tloc t))) r
| d_print : forall b i i1 e r1 r,
    token_then Print i i1 -> derives b Expression i1 (VE e) r1 -> token_then Terminator r1 r ->
    derives b Statement i (VS (SPrint e)) r
| d_return : forall b t i e r1 r,
    t_type t = Return -> derives b Expression i (VE e) r1 -> token_then Terminator r1 r ->
    derives b Statement (t :: i) (VS (SReturn e (tloc t))) r
| d_return_nil : forall b t i r,
    t_type t = Return -> token_then Terminator i r ->
    derives b Statement (t :: i) (VS (SReturn ENil (tloc t))) r
| d_block_statement : forall b i i1 l r,
    token_then LeftBrace i i1 -> derives b (Statements RightBrace) i1 (VSs l) r ->
    derives b Statement i (VS (SBlock l)) r
| d_branch_block : forall b i l r,
    derives b Block i (VSs l) r -> derives b Branch i (VS (SBlock l)) r
| d_branch_statement : forall b i st r,
    ~ starts [LeftBrace] i -> derives b Statement i (VS st) r -> derives b Branch i (VS st) r
| d_if : forall b i i1 i2 c i3 i4 st r,
    token_then If i i1 -> paren_then i1 i2 -> derives b Expression i2 (VE c) i3 ->
    token_then RightParen i3 i4 -> derives b Branch i4 (VS st) r -> ~ starts [Else] r ->
    derives b Statement i (VS (SIf c st None)) r
| d_if_else : forall b i i1 i2 c i3 i4 st i5 i6 st2 r,
    token_then If i i1 -> paren_then i1 i2 -> derives b Expression i2 (VE c) i3 ->
    token_then RightParen i3 i4 -> derives b Branch i4 (VS st) i5 -> token_then Else i5 i6 ->
    derives b Statement i6 (VS st2) r ->
    derives b Statement i (VS (SIf c st (Some st2))) r
| d_while : forall b i i1 i2 c i3 i4 st r,
    token_then While i i1 -> paren_then i1 i2 -> derives b Expression i2 (VE c) i3 ->
    token_then RightParen i3 i4 -> derives true Branch i4 (VS st) r ->
    derives b Statement i (VS (SWhile c st)) r
| d_for_none : forall b i r, token_then Semicolon i r -> derives b ForInit i (VO None) r
| d_for_var : forall b i i1 st r,
    token_then Var i i1 -> derives b (VarDeclaration true) i1 (VS st) r ->
    derives b ForInit i (VO (Some st)) r
| d_for_expression : forall b i st r,
    derives b ExpressionStatement i (VS st) r -> derives b ForInit i (VO (Some st)) r
| d_condition_none : forall b i,
    starts [Semicolon] i -> derives b Condition i (VE (EBool true)) i
| d_condition : forall b i e r, derives b Expression i (VE e) r -> derives b Condition i (VE e) r
| d_increment_none : forall b i, starts [RightParen] i -> derives b Increment i (VOE None) i
| d_increment : forall b i e r,
    derives b Expression i (VE e) r -> derives b Increment i (VOE (Some e)) r
| d_for : forall b i i1 i2 init i3 c i4 i5 inc i6 i7 st r,
    token_then For i i1 -> paren_then i1 i2 ->
    derives b ForInit i2 (VO init) i3 -> derives b Condition i3 (VE c) i4 ->
    token_then Semicolon i4 i5 -> derives b Increment i5 (VOE inc) i6 ->
    token_then RightParen i6 i7 -> derives true Branch i7 (VS st) r ->
    derives b Statement i (VS (for_tree init c inc st)) r
(** *** Programs *)
| d_program_end : forall b i, starts [Eof] i -> derives b Program i (VSs nil) i
| d_program_more : forall b i st r1 l r,
    derives b Declaration i (VS st) r1 -> derives b Program r1 (VSs l) r ->
    derives b Program i (VSs (st :: l)) r.
End Grammar.
