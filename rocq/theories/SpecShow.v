(** Vocabulary for the properties of rendered programs. *)
From Verif Require Import Base F64 Token Ast SpecTree.

(** The values that number tokens have. *)
Definition literal (x : f64) : Prop := exists s, parse_f64 s = Some x.
(** The numbers in a program are such values. *)
Definition literal_part (p : part) : Prop :=
  match p with PExpr (ENumber x) => literal x | _ => True end.
Definition literals (l : list stmt) : Prop := Forall literal_part (program_parts l).

(** Every boolean literal replaced by true. *)
Fixpoint blur (st : stmt) : stmt :=
  match st with
  | SBlock b => SBlock (map blur b)
  | SBreak l => SBreak l
  | SClass c => SClass (blur_class c)
  | SContinue l => SContinue l
  | SExpression e => SExpression (blur_expr e)
  | SFun f => SFun (blur_named f)
  | SIf c t e => SIf (blur_expr c) (blur t) (option_map blur e)
  | SPrint e => SPrint (blur_expr e)
  | SReturn e l => SReturn (blur_expr e) l
  | SVar x s e l => SVar x s (blur_expr e) l
  | SWhile c b => SWhile (blur_expr c) (blur b)
  | SWhileIncrement c b i => SWhileIncrement (blur_expr c) (blur b) (blur_expr i)
  end
with blur_expr (ex : expr) : expr :=
  match ex with
  | EAssign x v e l => EAssign x v (blur_expr e) l
  | ECall f args l => ECall (blur_expr f) (map blur_expr args) l
  | EBinary a op b l => EBinary (blur_expr a) op (blur_expr b) l
  | EFunction f => EFunction (blur_fun f)
  | EGet e p l => EGet (blur_expr e) p l
  | EGetIndex e i l => EGetIndex (blur_expr e) (blur_expr i) l
  | EGrouping e => EGrouping (blur_expr e)
  | EArray es => EArray (map blur_expr es)
  | EBool _ => EBool true
  | EMap m => EMap (map (fun kv => match kv with (k, e) => (k, blur_expr e) end) m)
  | ENumber x => ENumber x
  | ENil => ENil
  | EString s => EString s
  | ELogical a op b => ELogical (blur_expr a) op (blur_expr b)
  | ESet o p v l => ESet (blur_expr o) p (blur_expr v) l
  | ESetIndex a i v l => ESetIndex (blur_expr a) (blur_expr i) (blur_expr v) l
  | ESuper v m l => ESuper v m l
  | EVariable x v l => EVariable x v l
  | EUnary op e l => EUnary op (blur_expr e) l
  end
with blur_class (c : class_def) : class_def :=
  match c with
  | ClassDef n s ms l => ClassDef n (option_map blur_expr s) (map blur_named ms) l
  end
with blur_named (f : named_fun) : named_fun :=
  match f with NamedFun n f => NamedFun n (blur_fun f) end
with blur_fun (f : fun_def) : fun_def :=
  match f with FunDef ps b ft l => FunDef ps (map blur b) ft l end.
