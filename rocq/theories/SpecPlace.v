(** Syntax trees without the places they come from.  Independent of the models. *)
From Verif Require Import Base F64 Token Ast SpecLex SpecLayout.

Definition no_place : source_loc := mkLoc 0 0.

(** Every source position replaced by one and the same. *)
Fixpoint unplaced (st : stmt) : stmt :=
  match st with
  | SBlock b => SBlock (map unplaced b)
  | SBreak _ => SBreak no_place
  | SClass c => SClass (unplaced_class c)
  | SContinue _ => SContinue no_place
  | SExpression e => SExpression (unplaced_expr e)
  | SFun f => SFun (unplaced_named f)
  | SIf c t e => SIf (unplaced_expr c) (unplaced t) (option_map unplaced e)
  | SPrint e => SPrint (unplaced_expr e)
  | SReturn e _ => SReturn (unplaced_expr e) no_place
  | SVar x s e _ => SVar x s (unplaced_expr e) no_place
  | SWhile c b => SWhile (unplaced_expr c) (unplaced b)
  | SWhileIncrement c b i =>
    SWhileIncrement (unplaced_expr c) (unplaced b) (unplaced_expr i)
  end
with unplaced_expr (ex : expr) : expr :=
  match ex with
  | EAssign x v e _ => EAssign x v (unplaced_expr e) no_place
  | ECall f args _ => ECall (unplaced_expr f) (map unplaced_expr args) no_place
  | EBinary a op b _ => EBinary (unplaced_expr a) op (unplaced_expr b) no_place
  | EFunction f => EFunction (unplaced_fun f)
  | EGet e p _ => EGet (unplaced_expr e) p no_place
  | EGetIndex e i _ => EGetIndex (unplaced_expr e) (unplaced_expr i) no_place
  | EGrouping e => EGrouping (unplaced_expr e)
  | EArray es => EArray (map unplaced_expr es)
  | EBool b => EBool b
  | EMap m => EMap (map (fun kv => match kv with (k, e) => (k, unplaced_expr e) end) m)
  | ENumber x => ENumber x
  | ENil => ENil
  | EString s => EString s
  | ELogical a op b => ELogical (unplaced_expr a) op (unplaced_expr b)
  | ESet o p v _ => ESet (unplaced_expr o) p (unplaced_expr v) no_place
  | ESetIndex a i v _ =>
    ESetIndex (unplaced_expr a) (unplaced_expr i) (unplaced_expr v) no_place
  | ESuper v m _ => ESuper v m no_place
  | EVariable x v _ => EVariable x v no_place
  | EUnary op e _ => EUnary op (unplaced_expr e) no_place
  end
with unplaced_class (c : class_def) : class_def :=
  match c with
  | ClassDef n s ms _ =>
    ClassDef n (option_map unplaced_expr s) (map unplaced_named ms) no_place
  end
with unplaced_named (f : named_fun) : named_fun :=
  match f with NamedFun n f => NamedFun n (unplaced_fun f) end
with unplaced_fun (f : fun_def) : fun_def :=
  match f with
  | FunDef ps b ft _ =>
    FunDef (map (fun p => mkParam (p_name p) no_place) ps) (map unplaced b) ft no_place
  end.

(** Tokens that mean the same to a reader of the program, wherever they stand:
    the text matters only for names. *)
Definition same_word (t t' : token) : Prop :=
  t_type t = t_type t' /\ t_string t = t_string t' /\ t_float t = t_float t' /\
  (In (t_type t) [Identifier; This] -> t_lexeme t = t_lexeme t').

(** Errors that say the same, wherever. *)
Definition same_message (c c' : cause) : Prop :=
  c_message c = c_message c' /\ c_token c = c_token c'.
Definition same_messages (cs cs' : list cause) : Prop := Forall2 same_message cs cs'.

(** The results agree up to positions. *)
Definition same_program (x y : outcome (result (list stmt) parse_error)) : Prop :=
  match x, y with
  | Done (Ok l), Done (Ok l') => map unplaced l = map unplaced l'
  | Done (Err cs), Done (Err cs') => same_messages cs cs'
  | Diverged, Diverged => True
  | Panicked w, Panicked w' => w = w'
  | _, _ => False
  end.
Definition same_expression (x y : outcome (result expr parse_error)) : Prop :=
  match x, y with
  | Done (Ok e), Done (Ok e') => unplaced_expr e = unplaced_expr e'
  | Done (Err cs), Done (Err cs') => same_messages cs cs'
  | Diverged, Diverged => True
  | Panicked w, Panicked w' => w = w'
  | _, _ => False
  end.

(** What may follow spaces inserted after a token of kind [k]: anything but an opening parenthesis; not a
    newline, if the token before is an operator that continues the line. *)
Definition spaceable (k : token_type) (b : list elem) : Prop :=
  match b with
  | Tok LeftParen _ _ _ :: _ => False
  | Newline :: _ => continuing_kind k = false
  | _ => True
  end.

