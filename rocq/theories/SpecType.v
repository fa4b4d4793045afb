(** Which trees are the trees of texts, and a printer from such trees to texts.
    Independent of the models. *)
From Verif Require Import Base F64 Token Ast Scanner SpecLex SpecTree SpecPrint SpecWrite.
Local Open Scope string_scope.
Local Open Scope list_scope.

(** ** The trees of texts *)

(** An expression that starts with an empty map and is no assignment to a property or an element. *)
Definition loose (e : expr) : bool :=
  empty_first e && match e with ESet _ _ _ _ | ESetIndex _ _ _ _ => false | _ => true end.
(** No text has it as a statement: the braces would open a block, and behind an indented
    expression stands the first token of the next line, never the end of a line. *)
Definition free (st : stmt) : Prop := match st with SExpression e => loose e = false | _ => True end.
(** Only as the initialiser of a [for] can it be written. *)
Definition for_block (b : list stmt) : bool :=
  match b with
  | [SExpression e; (SWhile _ _ | SWhileIncrement _ _ _)] => loose e
  | _ => false
  end.
(** The statement would take an [else] behind it. *)
Fixpoint open_end (st : stmt) : bool :=
  match st with
  | SIf _ _ None => true
  | SIf _ _ (Some e) => open_end e
  | SWhile _ b | SWhileIncrement _ b _ => open_end b
  | SBlock [SExpression e; (SWhile _ b | SWhileIncrement _ b _)] => loose e && open_end b
  | _ => false
  end.
Definition settled_part (p : part) : Prop :=
  match p with
  | PStmt (SBlock b) => for_block b = true \/ Forall free b
  | PStmt (SIf _ t o) => free t /\ match o with Some e => free e /\ open_end t = false | None => True end
  | PStmt (SWhile _ b | SWhileIncrement _ b _) => free b
  | PFun (FunDef _ b _ _) => Forall free b
  | _ => True
  end.
Definition settled (l : list stmt) : Prop := Forall free l /\ Forall settled_part (program_parts l).

(** ** Tokens.  As in [SpecPrint], but for statements that start with an empty map. *)
Definition type_params (ps : list param) : list token :=
  commas (map (fun p => [name_tok (p_name p) (p_loc p)]) ps).

Fixpoint type_expr (e : expr) : list token :=
  match e with
  | EAssign x _ a l => name_tok x nowhere :: tok Equal "=" l :: type_expr a
  | ESet o p a l =>
    type_expr o ++ punct Dot :: name_tok p nowhere :: tok Equal "=" l :: type_expr a
  | ESetIndex o i a l =>
    type_expr o ++ punct LeftBracket :: type_expr i ++ punct RightBracket :: tok Equal "=" l :: type_expr a
  | ECall f args l =>
    type_expr f ++ tok LeftParenAbutting "" l :: commas (map type_expr args) ++ [punct RightParen]
  | EBinary a op b l => type_expr a ++ tok (binary_token op) "" l :: type_expr b
  | ELogical a op b =>
    type_expr a ++ punct (match op with LAnd => And | LOr => Or end) :: type_expr b
  | EUnary op a l => tok (unary_token op) "" l :: type_expr a
  | EGet a p l => type_expr a ++ tok Dot "" l :: [name_tok p nowhere]
  | EGetIndex a i l => type_expr a ++ tok LeftBracket "" l :: type_expr i ++ [punct RightBracket]
  | EGrouping a => punct LeftParen :: type_expr a ++ [punct RightParen]
  | EArray es => punct LeftBracket :: commas (map type_expr es) ++ [punct RightBracket]
  | EMap m =>
    punct LeftBrace ::
    commas (map (fun kv => match kv with (k, a) => string_tok k :: punct Colon :: type_expr a end) m) ++
    [punct RightBrace]
  | EBool b => [punct (if b then TTrue else TFalse)]
  | ENil => [punct Nil]
  | ENumber x => [number_tok x]
  | EString s => [string_tok s]
  | EVariable x _ l => [tok (if String.eqb x "this" then This else Identifier) x l]
  | ESuper _ m l => [tok Super "super" l; punct Dot; name_tok m nowhere]
  | EFunction f => tok Fun "fun" (fun_loc f) :: type_fun f
  end
with type_fun (f : fun_def) : list token :=
  match f with
  | FunDef ps body _ _ =>
    punct LeftParen :: type_params ps ++ punct RightParen :: punct LeftBrace ::
    flat_map type_stmt body ++ [punct RightBrace]
  end
(** The same for an expression that starts with a map that is not empty; this
    map is written with a comma at its end instead of braces. *)
with type_open (e : expr) : list token :=
  match e with
  | EMap m =>
    commas (map (fun kv => match kv with (k, a) => string_tok k :: punct Colon :: type_expr a end) m) ++
    [punct Comma]
  | ECall f args l =>
    type_open f ++ tok LeftParenAbutting "" l :: commas (map type_expr args) ++ [punct RightParen]
  | EBinary a op b l => type_open a ++ tok (binary_token op) "" l :: type_expr b
  | ELogical a op b =>
    type_open a ++ punct (match op with LAnd => And | LOr => Or end) :: type_expr b
  | EGet a p l => type_open a ++ tok Dot "" l :: [name_tok p nowhere]
  | EGetIndex a i l => type_open a ++ tok LeftBracket "" l :: type_expr i ++ [punct RightBracket]
  | ESet o p a l =>
    type_open o ++ punct Dot :: name_tok p nowhere :: tok Equal "=" l :: type_expr a
  | ESetIndex o i a l =>
    type_open o ++ punct LeftBracket :: type_expr i ++ punct RightBracket :: tok Equal "=" l :: type_expr a
  | _ => nil
  end
with type_stmt (st : stmt) : list token :=
  match st with
  | SBlock b =>
    (* an expression that is no assignment and starts with an empty map can only be the start of a [for] *)
    match b with
    | [SExpression e; SWhile c st] =>
      if loose e then
        punct For :: punct LeftParen :: type_expr e ++ newline :: type_expr c ++ punct Semicolon ::
        punct RightParen :: type_stmt st
      else punct LeftBrace :: flat_map type_stmt b ++ [punct RightBrace]
    | [SExpression e; SWhileIncrement c st i] =>
      if loose e then
        punct For :: punct LeftParen :: type_expr e ++ newline :: type_expr c ++ punct Semicolon ::
        type_expr i ++ punct RightParen :: type_stmt st
      else punct LeftBrace :: flat_map type_stmt b ++ [punct RightBrace]
    | _ => punct LeftBrace :: flat_map type_stmt b ++ [punct RightBrace]
    end
  | SBreak l => [tok Break "break" l; newline]
  | SContinue l => [tok Continue "continue" l; newline]
  | SExpression e =>
    (* a brace would open a block: an assignment that starts with an empty map
       is indented up to the sign, other maps at the start are written without braces *)
    (if brace_first e then
       if negb (empty_first e) then type_open e
       else match e with
       | ESet o p a l =>
         punct Indent :: type_expr o ++ punct Dot :: name_tok p nowhere :: newline :: punct Outdent ::
         tok Equal "=" l :: type_expr a
       | ESetIndex o i a l =>
         punct Indent :: type_expr o ++ punct LeftBracket :: type_expr i ++ punct RightBracket ::
         newline :: punct Outdent :: tok Equal "=" l :: type_expr a
       | _ => nil
       end
     else type_expr e) ++ [newline]
  | SPrint e => punct Print :: type_expr e ++ [newline]
  | SReturn e l => tok Return "return" l :: type_expr e ++ [newline]
  | SVar x _ e l => punct Var :: name_tok x l :: punct Equal :: type_expr e ++ [newline]
  | SFun (NamedFun x f) => punct Fun :: name_tok x (fun_loc f) :: type_fun f
  | SIf c t o =>
    punct If :: punct LeftParen :: type_expr c ++ punct RightParen :: type_stmt t ++
    match o with Some e => punct Else :: type_stmt e | None => nil end
  | SWhile c b =>
    punct While :: punct LeftParen :: type_expr c ++ punct RightParen :: type_stmt b
  | SWhileIncrement c b i =>
    punct For :: punct LeftParen :: punct Semicolon :: type_expr c ++ punct Semicolon ::
    type_expr i ++ punct RightParen :: type_stmt b
  | SClass (ClassDef x s ms l) =>
    punct Class :: name_tok x l ::
    match s with
    | Some (EVariable y _ l') => [punct Less; name_tok y l']
    | _ => nil
    end ++ punct LeftBrace ::
    flat_map (fun n => match n with
      | NamedFun m (FunDef _ _ k l' as f) =>
        match k with ClassMethod => [punct Class] | _ => nil end ++ name_tok m l' :: type_fun f
      end) ms ++ [punct RightBrace]
  end.

Definition type_program (l : list stmt) : list token := flat_map type_stmt l ++ [punct Eof].

(** ** Text *)
Fixpoint blanks (n : nat) : string := match n with O => "" | S n => String " " (blanks n) end.
(** As [write], with lines that are indented by [d].  Where an indented expression follows on a
    line, the line is continued and a comment follows, behind which a line may be indented
    whatever it follows. *)
Fixpoint write_deep (d : nat) (start : bool) (l : list token) : string :=
  match l with
  | nil => ""
  | t :: r =>
    match t_type t with
    | Eof => ""
    | Terminator => String.append s_nl (write_deep d true r)
    | Indent =>
      String.append
        (if start then ""
         else String.append s_backslash (String.append s_nl (String.append (blanks d) (String.append "//" s_nl))))
        (write_deep (S d) true r)
    | Outdent => write_deep (pred d) true r
    | _ =>
      String.append (if start then blanks d else "") (String.append (spell t)
        (String.append (if abutting r then "" else " ") (write_deep d false r)))
    end
  end.
(** The largest number of indentations open at once, of which there can be 65535. *)
Fixpoint peak (d : nat) (l : list token) : nat :=
  match l with
  | nil => d
  | t :: r =>
    Nat.max d (peak (match t_type t with Indent => S d | Outdent => pred d | _ => d end) r)
  end.
Definition indentable (l : list stmt) : Prop := (N.of_nat (peak 0 (type_program l)) <= u16_max)%N.
Definition full_text (l : list stmt) : string := write_deep 0 true (type_program l).

(** ** Leaves *)
(** Names, strings and numbers that can be written. *)
Definition leaf (name text : string -> Prop) (number : f64 -> Prop) (p : part) : Prop :=
  match p with PStmt (SExpression _) => True | _ => writable name text number p end.
Definition ascii_leaves (l : list stmt) : Prop := Forall (leaf ascii_name ascii_text literal) (program_parts l).
(** The text of one token, with a space behind it. *)
Definition word_for (U : unicode) (k : token_type) (str : option string) (num : option f64) (text : list string) : Prop :=
  valid_source text /\ lexeme U (Tok k text str num) [" "].
Definition text_leaves (U : unicode) (l : list stmt) : Prop :=
  Forall (leaf (fun x => exists text, word_for U Identifier None None text /\ sconcat text = x)
               (fun s => exists text, word_for U TString (Some s) None text)
               (fun x => exists text, word_for U Number None (Some x) text)) (program_parts l).
