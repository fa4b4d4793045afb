(** src/ast.rs and src/environment.rs: syntax trees and variable locations. *)
From Verif Require Import Base F64 Token.

(** src/environment.rs:15-30 [SlotIndex(u8)] *)
Record slot_index : Type := SlotIndex { slot : N }.
(** src/environment.rs:23-25 *)
Definition slot_placeholder : slot_index := SlotIndex u8_max.

(** src/environment.rs:39-42 [VarLoc { distance: u16, index: u8 }] *)
Record var_loc : Type := VarLoc { distance : N; index : N }.
(** src/environment.rs:45-50 *)
Definition var_placeholder : var_loc := VarLoc 0 0.

(** src/ast.rs:130-135 *)
Inductive fun_type : Type := PlainFunction | Method | Initializer | ClassMethod.
(** src/ast.rs:143-146 *)
Inductive unary_op : Type := UMinus | UNot.
(** src/ast.rs:154-166 *)
Inductive binary_op : Type :=
| BPlus | BMinus | BMultiply | BDivide
| BEqual | BNotEqual | BLess | BLessEqual | BGreater | BGreaterEqual.
(** src/ast.rs:174-177 *)
Inductive logical_op : Type := LAnd | LOr.

(** src/ast.rs:119-122 *)
Record param : Type := mkParam { p_name : string; p_loc : source_loc }.

(** src/ast.rs:29-42 [Stmt], 53-73 [Expr], 85-90 [ClassDefinition], 97-100
    [NamedFunctionDefinition], 107-112 [FunctionDefinition].  Boxes are
    dropped, a [Cell] is its value.  The insertion-ordered [Map]
    (src/ast.rs:76-78, an IndexMap) is the list of its entries in insertion
    order. *)
Inductive stmt : Type :=
| SBlock (body : list stmt)
| SBreak (l : source_loc)
| SClass (c : class_def)
| SContinue (l : source_loc)
| SExpression (e : expr)
| SFun (f : named_fun)
| SIf (c : expr) (t : stmt) (e : option stmt)
| SPrint (e : expr)
| SReturn (e : expr) (l : source_loc)
| SVar (x : string) (s : slot_index) (e : expr) (l : source_loc)
| SWhile (c : expr) (b : stmt)
| SWhileIncrement (c : expr) (b : stmt) (i : expr)
with expr : Type :=
| EAssign (x : string) (v : var_loc) (e : expr) (l : source_loc)
| ECall (f : expr) (args : list expr) (l : source_loc)
| EBinary (a : expr) (op : binary_op) (b : expr) (l : source_loc)
| EFunction (f : fun_def)
| EGet (e : expr) (p : string) (l : source_loc)
| EGetIndex (e : expr) (i : expr) (l : source_loc)
| EGrouping (e : expr)
| EArray (es : list expr)
| EBool (b : bool)
| EMap (m : list (string * expr))
| ENumber (x : f64)
| ENil
| EString (s : string)
| ELogical (a : expr) (op : logical_op) (b : expr)
| ESet (o : expr) (p : string) (v : expr) (l : source_loc)
| ESetIndex (a : expr) (i : expr) (v : expr) (l : source_loc)
| ESuper (v : var_loc) (m : string) (l : source_loc)
| EVariable (x : string) (v : var_loc) (l : source_loc)
| EUnary (op : unary_op) (e : expr) (l : source_loc)
with class_def : Type :=
| ClassDef (name : string) (super : option expr) (methods : list named_fun)
           (l : source_loc)
with named_fun : Type :=
| NamedFun (name : string) (f : fun_def)
with fun_def : Type :=
| FunDef (params : list param) (body : list stmt) (ft : fun_type)
         (l : source_loc).

(** [Map::insert] (src/ast.rs:249-251): IndexMap insertion.  A new key goes to
    the end; an existing key keeps its place and its old value is returned. *)
Fixpoint map_insert {V} (m : list (string * V)) (k : string) (v : V)
  : list (string * V) * option V :=
  match m with
  | nil => ([(k, v)], None)
  | (k', v') :: r =>
    if String.eqb k' k then ((k', v) :: r, Some v')
    else let '(r', old) := map_insert r k v in ((k', v') :: r', old)
  end.
