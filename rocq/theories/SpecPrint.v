(** A printer: tokens for every syntax tree.  Independent of the parser model
    and of the grammar.  Calls are written with parentheses, blocks and
    bodies with braces, map keys as strings; maps with braces, except the one a
    statement starts with. *)
From Verif Require Import Base F64 Token Ast SpecTree.

Definition nowhere : source_loc := mkLoc 0 0.
Definition tok (k : token_type) (text : string) (l : source_loc) : token :=
  mkToken k text None None (loc_line l) (loc_column l).
Definition name_tok (x : string) (l : source_loc) : token := tok Identifier x l.
Definition string_tok (s : string) : token := mkToken TString "" (Some s) None 0 0.
Definition number_tok (x : f64) : token := mkToken Number "" None (Some x) 0 0.
Definition punct (k : token_type) : token := tok k "" nowhere.
Definition newline : token := punct Terminator.

(** Lists with commas between. *)
Fixpoint commas (l : list (list token)) : list token :=
  match l with
  | nil => nil
  | a :: r => a ++ match r with nil => nil | _ :: _ => punct Comma :: commas r end
  end.

(** The expression starts with a map. *)
Fixpoint brace_first (e : expr) : bool :=
  match e with
  | EMap _ => true
  | ECall a _ _ | EGet a _ _ | EGetIndex a _ _ | EBinary a _ _ _ | ELogical a _ _
  | ESet a _ _ _ | ESetIndex a _ _ _ => brace_first a
  | _ => false
  end.
(** The expression starts with an empty map. *)
Fixpoint empty_first (e : expr) : bool :=
  match e with
  | EMap m => match m with nil => true | _ => false end
  | ECall a _ _ | EGet a _ _ | EGetIndex a _ _ | EBinary a _ _ _ | ELogical a _ _
  | ESet a _ _ _ | ESetIndex a _ _ _ => empty_first a
  | _ => false
  end.

Definition print_params (ps : list param) : list token :=
  commas (map (fun p => [name_tok (p_name p) (p_loc p)]) ps).

Fixpoint print_expr (e : expr) : list token :=
  match e with
  | EAssign x _ a l => name_tok x nowhere :: tok Equal "=" l :: print_expr a
  | ESet o p a l =>
    print_expr o ++ punct Dot :: name_tok p nowhere :: tok Equal "=" l :: print_expr a
  | ESetIndex o i a l =>
    print_expr o ++ punct LeftBracket :: print_expr i ++ punct RightBracket :: tok Equal "=" l :: print_expr a
  | ECall f args l =>
    print_expr f ++ tok LeftParenAbutting "" l :: commas (map print_expr args) ++ [punct RightParen]
  | EBinary a op b l => print_expr a ++ tok (binary_token op) "" l :: print_expr b
  | ELogical a op b =>
    print_expr a ++ punct (match op with LAnd => And | LOr => Or end) :: print_expr b
  | EUnary op a l => tok (unary_token op) "" l :: print_expr a
  | EGet a p l => print_expr a ++ tok Dot "" l :: [name_tok p nowhere]
  | EGetIndex a i l => print_expr a ++ tok LeftBracket "" l :: print_expr i ++ [punct RightBracket]
  | EGrouping a => punct LeftParen :: print_expr a ++ [punct RightParen]
  | EArray es => punct LeftBracket :: commas (map print_expr es) ++ [punct RightBracket]
  | EMap m =>
    punct LeftBrace ::
    commas (map (fun kv => match kv with (k, a) => string_tok k :: punct Colon :: print_expr a end) m) ++
    [punct RightBrace]
  | EBool b => [punct (if b then TTrue else TFalse)]
  | ENil => [punct Nil]
  | ENumber x => [number_tok x]
  | EString s => [string_tok s]
  | EVariable x _ l => [tok (if String.eqb x "this" then This else Identifier) x l]
  | ESuper _ m l => [tok Super "super" l; punct Dot; name_tok m nowhere]
  | EFunction f => tok Fun "fun" (fun_loc f) :: print_fun f
  end
with print_fun (f : fun_def) : list token :=
  match f with
  | FunDef ps body _ _ =>
    punct LeftParen :: print_params ps ++ punct RightParen :: punct LeftBrace ::
    flat_map print_stmt body ++ [punct RightBrace]
  end
(** The same for an expression that starts with a map that is not empty; this
    map is written with a comma at its end instead of braces. *)
with print_open (e : expr) : list token :=
  match e with
  | EMap m =>
    commas (map (fun kv => match kv with (k, a) => string_tok k :: punct Colon :: print_expr a end) m) ++
    [punct Comma]
  | ECall f args l =>
    print_open f ++ tok LeftParenAbutting "" l :: commas (map print_expr args) ++ [punct RightParen]
  | EBinary a op b l => print_open a ++ tok (binary_token op) "" l :: print_expr b
  | ELogical a op b =>
    print_open a ++ punct (match op with LAnd => And | LOr => Or end) :: print_expr b
  | EGet a p l => print_open a ++ tok Dot "" l :: [name_tok p nowhere]
  | EGetIndex a i l => print_open a ++ tok LeftBracket "" l :: print_expr i ++ [punct RightBracket]
  | ESet o p a l =>
    print_open o ++ punct Dot :: name_tok p nowhere :: tok Equal "=" l :: print_expr a
  | ESetIndex o i a l =>
    print_open o ++ punct LeftBracket :: print_expr i ++ punct RightBracket :: tok Equal "=" l :: print_expr a
  | _ => nil
  end
with print_stmt (st : stmt) : list token :=
  match st with
  | SBlock b => punct LeftBrace :: flat_map print_stmt b ++ [punct RightBrace]
  | SBreak l => [tok Break "break" l; newline]
  | SContinue l => [tok Continue "continue" l; newline]
  | SExpression e =>
    (* a brace would open a block: an expression that starts with an empty map
       is indented, other maps at the start are written without braces *)
    (if brace_first e then
       if negb (empty_first e) then print_open e
       else match e with
       | ESet o p a l =>
         punct Indent :: print_expr o ++ punct Dot :: name_tok p nowhere :: punct Outdent ::
         tok Equal "=" l :: print_expr a
       | ESetIndex o i a l =>
         punct Indent :: print_expr o ++ punct LeftBracket :: print_expr i ++ punct RightBracket ::
         punct Outdent :: tok Equal "=" l :: print_expr a
       | _ => punct Indent :: print_expr e ++ [punct Outdent]
       end
     else print_expr e) ++ [newline]
  | SPrint e => punct Print :: print_expr e ++ [newline]
  | SReturn e l => tok Return "return" l :: print_expr e ++ [newline]
  | SVar x _ e l => punct Var :: name_tok x l :: punct Equal :: print_expr e ++ [newline]
  | SFun (NamedFun x f) => punct Fun :: name_tok x (fun_loc f) :: print_fun f
  | SIf c t o =>
    punct If :: punct LeftParen :: print_expr c ++ punct RightParen :: print_stmt t ++
    match o with Some e => punct Else :: print_stmt e | None => nil end
  | SWhile c b =>
    punct While :: punct LeftParen :: print_expr c ++ punct RightParen :: print_stmt b
  | SWhileIncrement c b i =>
    punct For :: punct LeftParen :: punct Semicolon :: print_expr c ++ punct Semicolon ::
    print_expr i ++ punct RightParen :: print_stmt b
  | SClass (ClassDef x s ms l) =>
    punct Class :: name_tok x l ::
    match s with
    | Some (EVariable y _ l') => [punct Less; name_tok y l']
    | _ => nil
    end ++ punct LeftBrace ::
    flat_map (fun n => match n with
      | NamedFun m (FunDef _ _ k l' as f) =>
        match k with ClassMethod => [punct Class] | _ => nil end ++ name_tok m l' :: print_fun f
      end) ms ++ [punct RightBrace]
  end.

Definition print_program (l : list stmt) : list token := flat_map print_stmt l ++ [punct Eof].
