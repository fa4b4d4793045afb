(** Rendering of values as text: [{:#?}] of the derived [Debug] impls
    (src/main.rs:108), the serialization of the WebAssembly entry point
    (src/wasm.rs:19) and the pretty printer of the demo page (index.html:92-132).

    Two texts are taken from the outside, as parameters: how a string is
    quoted by Rust's [Debug], and how a binary64 number is written by Rust's
    [Debug] and by JavaScript's [Number.prototype.toString]. *)
From Coq Require Import DecimalString.
From Verif Require Import Base F64 Token Ast.
Local Open Scope string_scope.

Record formats : Type := mkFormats {
  f_str : string -> string;  (* <str as Debug>::fmt *)
  f_num : f64 -> string;     (* <f64 as Debug>::fmt *)
  f_js : f64 -> string       (* Number.prototype.toString *)
}.

(** [Display] of an unsigned integer. *)
Definition decimal (n : N) : string := NilZero.string_of_uint (N.to_uint n).

(** ** Documents: what the two printers lay out. *)
Inductive label : Type :=
| NoLabel
| Field (name : string)        (* name: *)
| Key (key : string).          (* a quoted key *)
Inductive doc : Type :=
| Word (w : string)            (* printed as it is *)
| Text (s : string)            (* printed quoted *)
| Node (opening : string) (items : list (label * doc)) (closing : string).

(** Joins strings. *)
Fixpoint cat (l : list string) : string :=
  match l with nil => "" | x :: r => x ++ cat r end.

(** ** [{:#?}], the pretty form of core::fmt::builders: an item per line,
    indented by four spaces ([PadAdapter]) and followed by a comma.  [pad] is
    what stands at the beginning of the current line.  Quoted strings contain
    no newline (Rust escapes it), so padding only concerns the lines written
    here. *)
Section Debug.
Variable F : formats.

Definition show_label (quote : string -> string) (l : label) : string :=
  match l with
  | NoLabel => ""
  | Field n => n ++ ": "
  | Key k => quote k ++ ": "
  end.

Fixpoint debug (pad : string) (d : doc) : string :=
  match d with
  | Word w => w
  | Text s => f_str F s
  | Node o items c =>
    o ++ s_nl ++
    cat (map (fun i => match i with
                       | (l, x) => pad ++ "    " ++ show_label (f_str F) l ++
                                   debug (pad ++ "    ") x ++ "," ++ s_nl
                       end) items) ++
    pad ++ c
  end.

(** The [debug_struct], [debug_tuple], [debug_list] and [debug_map] builders;
    without items there are no line breaks. *)
Definition dstruct (name : string) (fields : list (string * doc)) : doc :=
  Node (name ++ " {") (map (fun f => (Field (fst f), snd f)) fields) "}".
Definition dtuple (name : string) (l : list doc) : doc :=
  Node (name ++ "(") (map (fun x => (NoLabel, x)) l) ")".
Definition dlist (l : list doc) : doc :=
  match l with
  | nil => Word "[]"
  | _ => Node "[" (map (fun x => (NoLabel, x)) l) "]"
  end.
Definition dmap (l : list (string * doc)) : doc :=
  match l with
  | nil => Word "{}"
  | _ => Node "{" (map (fun f => (Key (fst f), snd f)) l) "}"
  end.
Definition doption {A} (f : A -> doc) (o : option A) : doc :=
  match o with
  | None => Word "None"
  | Some a => dtuple "Some" [f a]
  end.
Definition dint (n : N) : doc := Word (decimal n).
(** [Cell<T>: Debug] *)
Definition dcell (x : doc) : doc := dstruct "Cell" [("value", x)].

(** The derived [Debug] impls of src/source_loc.rs:14, src/environment.rs:15
    and 38, src/ast.rs:28-177. *)
Definition dloc (l : source_loc) : doc :=
  dstruct "SourceLoc" [("line", dint (loc_line l)); ("column", dint (loc_column l))].
Definition dslot (i : slot_index) : doc := dcell (dtuple "SlotIndex" [dint (slot i)]).
Definition dvar (v : var_loc) : doc :=
  dcell (dstruct "VarLoc" [("distance", dint (distance v)); ("index", dint (index v))]).
Definition fun_type_name (t : fun_type) : string :=
  match t with
  | PlainFunction => "PlainFunction"
  | Method => "Method"
  | Initializer => "Initializer"
  | ClassMethod => "ClassMethod"
  end.
Definition unary_name (o : unary_op) : string :=
  match o with UMinus => "Minus" | UNot => "Not" end.
Definition binary_name (o : binary_op) : string :=
  match o with
  | BPlus => "Plus" | BMinus => "Minus" | BMultiply => "Multiply" | BDivide => "Divide"
  | BEqual => "Equal" | BNotEqual => "NotEqual" | BLess => "Less"
  | BLessEqual => "LessEqual" | BGreater => "Greater" | BGreaterEqual => "GreaterEqual"
  end.
Definition logical_name (o : logical_op) : string :=
  match o with LAnd => "And" | LOr => "Or" end.
Definition bool_name (b : bool) : string := if b then "true" else "false".
Definition dparam (p : param) : doc :=
  dstruct "Parameter" [("name", Text (p_name p)); ("source_loc", dloc (p_loc p))].

Fixpoint dstmt (st : stmt) : doc :=
  match st with
  | SBlock b => dtuple "Block" [dlist (map dstmt b)]
  | SBreak l => dtuple "Break" [dloc l]
  | SClass c => dtuple "Class" [dclass c]
  | SContinue l => dtuple "Continue" [dloc l]
  | SExpression e => dtuple "Expression" [dexpr e]
  | SFun f => dtuple "Fun" [dnamed f]
  | SIf c t e => dtuple "If" [dexpr c; dstmt t; doption dstmt e]
  | SPrint e => dtuple "Print" [dexpr e]
  | SReturn e l => dtuple "Return" [dexpr e; dloc l]
  | SVar x i e l => dtuple "Var" [Text x; dslot i; dexpr e; dloc l]
  | SWhile c b => dtuple "While" [dexpr c; dstmt b]
  | SWhileIncrement c b i => dtuple "WhileIncrement" [dexpr c; dstmt b; dexpr i]
  end
with dexpr (ex : expr) : doc :=
  match ex with
  | EAssign x v e l => dtuple "Assign" [Text x; dvar v; dexpr e; dloc l]
  | ECall f args l => dtuple "Call" [dexpr f; dlist (map dexpr args); dloc l]
  | EBinary a op b l => dtuple "Binary" [dexpr a; Word (binary_name op); dexpr b; dloc l]
  | EFunction f => dtuple "Function" [dfun f]
  | EGet e p l => dtuple "Get" [dexpr e; Text p; dloc l]
  | EGetIndex e i l => dtuple "GetIndex" [dexpr e; dexpr i; dloc l]
  | EGrouping e => dtuple "Grouping" [dexpr e]
  | EArray es => dtuple "LiteralArray" [dlist (map dexpr es)]
  | EBool b => dtuple "LiteralBool" [Word (bool_name b)]
  | EMap m =>
    dtuple "LiteralMap"
      [dstruct "Map" [("map", dmap (map (fun kv => match kv with
                                                   | (k, e) => (k, dexpr e)
                                                   end) m))]]
  | ENumber x => dtuple "LiteralNumber" [Word (f_num F x)]
  | ENil => Word "LiteralNil"
  | EString s => dtuple "LiteralString" [Text s]
  | ELogical a op b => dtuple "Logical" [dexpr a; Word (logical_name op); dexpr b]
  | ESet o p v l => dtuple "Set" [dexpr o; Text p; dexpr v; dloc l]
  | ESetIndex a i v l => dtuple "SetIndex" [dexpr a; dexpr i; dexpr v; dloc l]
  | ESuper v m l => dtuple "Super" [dvar v; Text m; dloc l]
  | EVariable x v l => dtuple "Variable" [Text x; dvar v; dloc l]
  | EUnary op e l => dtuple "Unary" [Word (unary_name op); dexpr e; dloc l]
  end
with dclass (c : class_def) : doc :=
  match c with
  | ClassDef n s ms l =>
    dstruct "ClassDefinition"
      [("name", Text n); ("superclass", doption dexpr s);
       ("methods", dlist (map dnamed ms)); ("source_loc", dloc l)]
  end
with dnamed (f : named_fun) : doc :=
  match f with
  | NamedFun n f =>
    dstruct "NamedFunctionDefinition" [("name", Text n); ("fun_def", dfun f)]
  end
with dfun (f : fun_def) : doc :=
  match f with
  | FunDef ps b ft l =>
    dstruct "FunctionDefinition"
      [("parameters", dlist (map dparam ps)); ("body", dlist (map dstmt b));
       ("fun_type", Word (fun_type_name ft)); ("source_loc", dloc l)]
  end.

(** [format!("{:#?}", statements)], the statements being a [Vec<Stmt>] *)
Definition debug_program (l : list stmt) : string := debug "" (dlist (map dstmt l)).
End Debug.

(** ** JavaScript values, as made by serde_wasm_bindgen's default serializer:
    structs are objects, maps are [Map]s, sequences and tuples arrays, [None]
    is [undefined], unit variants of plain enums strings. *)
Inductive js : Type :=
| JUndefined
| JBool (b : bool)
| JInt (n : N)
| JNumber (x : f64)
| JString (s : string)
| JArray (l : list js)
| JObject (fields : list (string * js))
| JMap (entries : list (string * js)).

(** [#[serde(tag = "type", content = "args")]] *)
Definition tagged (name : string) (args : js) : js :=
  JObject [("type", JString name); ("args", args)].
Definition jopt {A} (f : A -> js) (o : option A) : js :=
  match o with None => JUndefined | Some a => f a end.
Definition jloc (l : source_loc) : js :=
  JObject [("line", JInt (loc_line l)); ("column", JInt (loc_column l))].
(** A newtype struct is its content, a [Cell] too. *)
Definition jslot (i : slot_index) : js := JInt (slot i).
Definition jvar (v : var_loc) : js :=
  JObject [("distance", JInt (distance v)); ("index", JInt (index v))].
Definition jparam (p : param) : js :=
  JObject [("name", JString (p_name p)); ("source_loc", jloc (p_loc p))].

(** The derived [Serialize] impls of src/ast.rs:20-177 and the impl for [Map],
    src/ast.rs:270-285. *)
Fixpoint jstmt (st : stmt) : js :=
  match st with
  | SBlock b => tagged "Block" (JArray (map jstmt b))
  | SBreak l => tagged "Break" (jloc l)
  | SClass c => tagged "Class" (jclass c)
  | SContinue l => tagged "Continue" (jloc l)
  | SExpression e => tagged "Expression" (jexpr e)
  | SFun f => tagged "Fun" (jnamed f)
  | SIf c t e => tagged "If" (JArray [jexpr c; jstmt t; jopt jstmt e])
  | SPrint e => tagged "Print" (jexpr e)
  | SReturn e l => tagged "Return" (JArray [jexpr e; jloc l])
  | SVar x i e l => tagged "Var" (JArray [JString x; jslot i; jexpr e; jloc l])
  | SWhile c b => tagged "While" (JArray [jexpr c; jstmt b])
  | SWhileIncrement c b i => tagged "WhileIncrement" (JArray [jexpr c; jstmt b; jexpr i])
  end
with jexpr (ex : expr) : js :=
  match ex with
  | EAssign x v e l => tagged "Assign" (JArray [JString x; jvar v; jexpr e; jloc l])
  | ECall f args l => tagged "Call" (JArray [jexpr f; JArray (map jexpr args); jloc l])
  | EBinary a op b l =>
    tagged "Binary" (JArray [jexpr a; JString (binary_name op); jexpr b; jloc l])
  | EFunction f => tagged "Function" (jfun f)
  | EGet e p l => tagged "Get" (JArray [jexpr e; JString p; jloc l])
  | EGetIndex e i l => tagged "GetIndex" (JArray [jexpr e; jexpr i; jloc l])
  | EGrouping e => tagged "Grouping" (jexpr e)
  | EArray es => tagged "LiteralArray" (JArray (map jexpr es))
  | EBool b => tagged "LiteralBool" (JBool b)
  | EMap m =>
    tagged "LiteralMap" (JMap (map (fun kv => match kv with
                                              | (k, e) => (k, jexpr e)
                                              end) m))
  | ENumber x => tagged "LiteralNumber" (JNumber x)
  | ENil => JObject [("type", JString "LiteralNil")]
  | EString s => tagged "LiteralString" (JString s)
  | ELogical a op b =>
    tagged "Logical" (JArray [jexpr a; JString (logical_name op); jexpr b])
  | ESet o p v l => tagged "Set" (JArray [jexpr o; JString p; jexpr v; jloc l])
  | ESetIndex a i v l => tagged "SetIndex" (JArray [jexpr a; jexpr i; jexpr v; jloc l])
  | ESuper v m l => tagged "Super" (JArray [jvar v; JString m; jloc l])
  | EVariable x v l => tagged "Variable" (JArray [JString x; jvar v; jloc l])
  | EUnary op e l => tagged "Unary" (JArray [JString (unary_name op); jexpr e; jloc l])
  end
with jclass (c : class_def) : js :=
  match c with
  | ClassDef n s ms l =>
    JObject [("name", JString n); ("superclass", jopt jexpr s);
             ("methods", JArray (map jnamed ms)); ("source_loc", jloc l)]
  end
with jnamed (f : named_fun) : js :=
  match f with
  | NamedFun n f => JObject [("name", JString n); ("fun_def", jfun f)]
  end
with jfun (f : fun_def) : js :=
  match f with
  | FunDef ps b ft l =>
    JObject [("parameters", JArray (map jparam ps)); ("body", JArray (map jstmt b));
             ("fun_type", JString (fun_type_name ft)); ("source_loc", jloc l)]
  end.

(** ** The pretty printer of the page, index.html:38-132. *)

(** JSON.stringify of a string: quote, backslash and the control characters
    are escaped, every other byte stays.  (Strings coming from Rust have no
    lone surrogates.) *)
Definition hex_digit (n : N) : ascii :=
  ascii_of_N (if (n <? 10)%N then 48 + n else 87 + n).
Definition json_byte (c : ascii) : string :=
  let n := N_of_ascii c in
  if (n =? 34)%N then s_backslash ++ s_quote
  else if (n =? 92)%N then s_backslash ++ s_backslash
  else if (n =? 8)%N then s_backslash ++ "b"
  else if (n =? 12)%N then s_backslash ++ "f"
  else if (n =? 10)%N then s_backslash ++ "n"
  else if (n =? 13)%N then s_backslash ++ "r"
  else if (n =? 9)%N then s_backslash ++ "t"
  else if (n <? 32)%N then
    s_backslash ++ "u00" ++
    String (hex_digit (n / 16)) (String (hex_digit (n mod 16)) "")
  else String c "".
Fixpoint json_chars (s : string) : string :=
  match s with
  | "" => ""
  | String c r => json_byte c ++ json_chars r
  end.
(** index.html:38-40 [escapeString] *)
Definition escape_string (s : string) : string := s_quote ++ json_chars s ++ s_quote.

(** index.html:42 [IDENTIFIER_REGEXP] *)
Definition identifier_byte (first : bool) (c : ascii) : bool :=
  let n := N_of_ascii c in
  (((97 <=? n) && (n <=? 122)) || ((65 <=? n) && (n <=? 90)) || (n =? 95) ||
   (negb first && ((48 <=? n) && (n <=? 57))))%N%bool.
Fixpoint identifier_rest (s : string) : bool :=
  match s with
  | "" => true
  | String c r => identifier_byte false c && identifier_rest r
  end.
Definition is_identifier (s : string) : bool :=
  match s with
  | "" => false
  | String c r => identifier_byte true c && identifier_rest r
  end.
(** index.html:44-80 [JS_RESERVED] *)
Definition js_reserved : list string :=
  ["break"; "case"; "catch"; "class"; "const"; "continue"; "debugger"; "default";
   "delete"; "do"; "else"; "export"; "extends"; "false"; "finally"; "for";
   "function"; "if"; "import"; "in"; "instanceof"; "new"; "null"; "return";
   "super"; "switch"; "this"; "throw"; "true"; "try"; "typeof"; "var"; "void";
   "while"; "with"].
(** index.html:82-89 [escapeMapKey] *)
Definition escape_map_key (s : string) : string :=
  if is_identifier s && negb (existsb (String.eqb s) js_reserved) then s
  else escape_string s.

Section Pretty.
Variable F : formats.
(** index.html:92-132 [pretty]: the parts joined with a newline and the
    prefix.  A boolean is neither null, undefined, a number, a string nor an
    array, so it is printed by the last branch, as an object without keys. *)
Fixpoint pretty (v : js) (prefix : string) : string :=
  match v with
  | JUndefined => "undefined"
  | JInt n => decimal n
  | JNumber x => f_js F x
  | JString s => escape_string s
  | JArray l =>
    s_nl ++ prefix ++ "[" ++
    cat (map (fun x => s_nl ++ prefix ++ "  " ++ pretty x (prefix ++ "  ") ++ ",") l) ++
    s_nl ++ prefix ++ "]"
  | JMap l =>
    s_nl ++ prefix ++ "{" ++
    cat (map (fun kv => match kv with
                        | (k, x) => s_nl ++ prefix ++ "  " ++ escape_map_key k ++ ": " ++
                                    pretty x (prefix ++ "  ") ++ ","
                        end) l) ++
    s_nl ++ prefix ++ "}"
  | JObject l =>
    s_nl ++ prefix ++ "{" ++
    cat (map (fun kv => match kv with
                        | (k, x) => s_nl ++ prefix ++ "  " ++ escape_map_key k ++ ": " ++
                                    pretty x (prefix ++ "  ") ++ ","
                        end) l) ++
    s_nl ++ prefix ++ "}"
  | JBool _ => s_nl ++ prefix ++ "{" ++ s_nl ++ prefix ++ "}"
  end.
(** index.html:141-143 [display] *)
Definition display (v : js) : string := pretty v "".
End Pretty.
