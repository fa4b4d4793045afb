(** Syntax trees as data, and three ways of showing data: Rust's [{:#?}],
    serde's JavaScript values, and the lines shown by the demo page.  Each way is
    defined for data in general.  Of the models only the types [formats] and
    [js] and the decimal notation of integers are used. *)
From Verif Require Import Base F64 Token Ast Show.
Local Open Scope string_scope.

(** ** Data *)
Inductive datum : Type :=
| Int (n : N)
| Float (x : f64)
| Bool (b : bool)
| Str (s : string)
| Maybe (o : option datum)
| Seq (l : list datum)                            (* Vec *)
| Dict (l : list (string * datum))                (* the type Map of src/ast.rs *)
| Constant (name : string)                        (* of an enum without data *)
| Variant (name : string) (args : list datum)     (* of a tagged enum *)
| Struct (name : string) (fields : list (string * datum))
| Wrapper (name : string) (d : datum)             (* a struct with one unnamed field *)
| InCell (d : datum).

(** The types of src/ast.rs, src/environment.rs and src/source_loc.rs. *)
Definition loc_data (l : source_loc) : datum :=
  Struct "SourceLoc" [("line", Int (loc_line l)); ("column", Int (loc_column l))].
Definition slot_data (i : slot_index) : datum := InCell (Wrapper "SlotIndex" (Int (slot i))).
Definition var_data (v : var_loc) : datum :=
  InCell (Struct "VarLoc" [("distance", Int (distance v)); ("index", Int (index v))]).
Definition param_data (p : param) : datum :=
  Struct "Parameter" [("name", Str (p_name p)); ("source_loc", loc_data (p_loc p))].
Definition fun_type_data (t : fun_type) : datum :=
  match t with
  | PlainFunction => Constant "PlainFunction"
  | Method => Constant "Method"
  | Initializer => Constant "Initializer"
  | ClassMethod => Constant "ClassMethod"
  end.
Definition unary_data (o : unary_op) : datum :=
  match o with UMinus => Constant "Minus" | UNot => Constant "Not" end.
Definition binary_data (o : binary_op) : datum :=
  match o with
  | BPlus => Constant "Plus"
  | BMinus => Constant "Minus"
  | BMultiply => Constant "Multiply"
  | BDivide => Constant "Divide"
  | BEqual => Constant "Equal"
  | BNotEqual => Constant "NotEqual"
  | BLess => Constant "Less"
  | BLessEqual => Constant "LessEqual"
  | BGreater => Constant "Greater"
  | BGreaterEqual => Constant "GreaterEqual"
  end.
Definition logical_data (o : logical_op) : datum :=
  match o with LAnd => Constant "And" | LOr => Constant "Or" end.

Fixpoint stmt_data (st : stmt) : datum :=
  match st with
  | SBlock b => Variant "Block" [Seq (map stmt_data b)]
  | SBreak l => Variant "Break" [loc_data l]
  | SClass c => Variant "Class" [class_data c]
  | SContinue l => Variant "Continue" [loc_data l]
  | SExpression e => Variant "Expression" [expr_data e]
  | SFun f => Variant "Fun" [named_data f]
  | SIf c t e => Variant "If" [expr_data c; stmt_data t; Maybe (option_map stmt_data e)]
  | SPrint e => Variant "Print" [expr_data e]
  | SReturn e l => Variant "Return" [expr_data e; loc_data l]
  | SVar x i e l => Variant "Var" [Str x; slot_data i; expr_data e; loc_data l]
  | SWhile c b => Variant "While" [expr_data c; stmt_data b]
  | SWhileIncrement c b i => Variant "WhileIncrement" [expr_data c; stmt_data b; expr_data i]
  end
with expr_data (ex : expr) : datum :=
  match ex with
  | EAssign x v e l => Variant "Assign" [Str x; var_data v; expr_data e; loc_data l]
  | ECall f args l => Variant "Call" [expr_data f; Seq (map expr_data args); loc_data l]
  | EBinary a op b l => Variant "Binary" [expr_data a; binary_data op; expr_data b; loc_data l]
  | EFunction f => Variant "Function" [fun_data f]
  | EGet e p l => Variant "Get" [expr_data e; Str p; loc_data l]
  | EGetIndex e i l => Variant "GetIndex" [expr_data e; expr_data i; loc_data l]
  | EGrouping e => Variant "Grouping" [expr_data e]
  | EArray es => Variant "LiteralArray" [Seq (map expr_data es)]
  | EBool b => Variant "LiteralBool" [Bool b]
  | EMap m => Variant "LiteralMap"
                [Dict (map (fun kv => match kv with (k, e) => (k, expr_data e) end) m)]
  | ENumber x => Variant "LiteralNumber" [Float x]
  | ENil => Variant "LiteralNil" nil
  | EString s => Variant "LiteralString" [Str s]
  | ELogical a op b => Variant "Logical" [expr_data a; logical_data op; expr_data b]
  | ESet o p v l => Variant "Set" [expr_data o; Str p; expr_data v; loc_data l]
  | ESetIndex a i v l => Variant "SetIndex" [expr_data a; expr_data i; expr_data v; loc_data l]
  | ESuper v m l => Variant "Super" [var_data v; Str m; loc_data l]
  | EVariable x v l => Variant "Variable" [Str x; var_data v; loc_data l]
  | EUnary op e l => Variant "Unary" [unary_data op; expr_data e; loc_data l]
  end
with class_data (c : class_def) : datum :=
  match c with
  | ClassDef n s ms l =>
    Struct "ClassDefinition"
      [("name", Str n); ("superclass", Maybe (option_map expr_data s));
       ("methods", Seq (map named_data ms)); ("source_loc", loc_data l)]
  end
with named_data (f : named_fun) : datum :=
  match f with
  | NamedFun n f => Struct "NamedFunctionDefinition" [("name", Str n); ("fun_def", fun_data f)]
  end
with fun_data (f : fun_def) : datum :=
  match f with
  | FunDef ps b ft l =>
    Struct "FunctionDefinition"
      [("parameters", Seq (map param_data ps)); ("body", Seq (map stmt_data b));
       ("fun_type", fun_type_data ft); ("source_loc", loc_data l)]
  end.
Definition program_data (l : list stmt) : datum := Seq (map stmt_data l).

(** ** Lines, each with its indentation.  A value starts in the middle of a line,
    so nothing stands before its first line. *)
Definition lines : Type := list (nat * string).
Definition word (s : string) : lines := [(0, s)].
(** [before] in front of the first line, [behind] after the last. *)
Definition prefixed (before : string) (l : lines) : lines :=
  match l with (n, s) :: r => (n, before ++ s) :: r | nil => nil end.
Fixpoint suffixed (behind : string) (l : lines) : lines :=
  match l with
  | nil => nil
  | [(n, s)] => [(n, s ++ behind)]
  | x :: r => x :: suffixed behind r
  end.
Definition deeper (l : lines) : lines := map (fun x => (S (fst x), snd x)) l.
(** An item on lines of its own, followed by a comma. *)
Definition item (label : string) (l : lines) : lines := deeper (prefixed label (suffixed "," l)).
Definition enclosed (opening closing : string) (items : list lines) : lines :=
  (word opening ++ List.concat items ++ word closing)%list.

Fixpoint repeated_text (n : nat) (s : string) : string :=
  match n with 0 => "" | S n => s ++ repeated_text n s end.
(** The text of a value that starts at the beginning of the text. *)
Definition text_of_lines (unit_ : string) (l : lines) : string :=
  match l with
  | nil => ""
  | (_, s) :: r =>
    s ++ String.concat "" (map (fun x => s_nl ++ repeated_text (fst x) unit_ ++ snd x) r)
  end.

Section Ways.
Variable F : formats.

(** ** [{:#?}] *)
Fixpoint debug_lines (d : datum) : lines :=
  match d with
  | Int n => word (decimal n)
  | Float x => word (f_num F x)
  | Bool b => word (if b then "true" else "false")
  | Str s => word (f_str F s)
  | Maybe None => word "None"
  | Maybe (Some d) => enclosed "Some(" ")" [item "" (debug_lines d)]
  | Seq nil => word "[]"
  | Seq l => enclosed "[" "]" (map (fun d => item "" (debug_lines d)) l)
  | Dict l =>
    enclosed "Map {" "}"
      [item "map: "
        (match l with
         | nil => word "{}"
         | _ => enclosed "{" "}"
                  (map (fun kd => match kd with
                                  | (k, d) => item (f_str F k ++ ": ") (debug_lines d)
                                  end) l)
         end)]
  | Constant name => word name
  | Variant name nil => word name
  | Variant name args => enclosed (name ++ "(") ")" (map (fun d => item "" (debug_lines d)) args)
  | Struct name fields =>
    enclosed (name ++ " {") "}"
      (map (fun kd => match kd with (k, d) => item (k ++ ": ") (debug_lines d) end) fields)
  | Wrapper name d => enclosed (name ++ "(") ")" [item "" (debug_lines d)]
  | InCell d => enclosed "Cell {" "}" [item "value: " (debug_lines d)]
  end.

(** ** JavaScript values: enums with data carry the tag "type" and, if any, the
    content "args" *)
Fixpoint js_value (d : datum) : js :=
  match d with
  | Int n => JInt n
  | Float x => JNumber x
  | Bool b => JBool b
  | Str s => JString s
  | Maybe None => JUndefined
  | Maybe (Some d) => js_value d
  | Seq l => JArray (map js_value l)
  | Dict l => JMap (map (fun kd => match kd with (k, d) => (k, js_value d) end) l)
  | Constant name => JString name
  | Variant name args =>
    JObject (("type", JString name) ::
             match args with
             | nil => nil
             | [d] => [("args", js_value d)]
             | _ => [("args", JArray (map js_value args))]
             end)
  | Struct _ fields => JObject (map (fun kd => match kd with (k, d) => (k, js_value d) end) fields)
  | Wrapper _ d => js_value d
  | InCell d => js_value d
  end.

(** ** The page *)
(** JSON strings.  [escaped b s]: [s] is how the byte [b] is written. *)
Definition short_escapes : list (N * string) :=
  [(34, s_quote); (92, s_backslash); (8, "b"); (12, "f"); (10, "n"); (13, "r"); (9, "t")]%N.
Definition hex : list string :=
  ["0"; "1"; "2"; "3"; "4"; "5"; "6"; "7"; "8"; "9"; "a"; "b"; "c"; "d"; "e"; "f"].
Inductive escaped (c : ascii) : string -> Prop :=
| EShort s : In (N_of_ascii c, s) short_escapes -> escaped c (s_backslash ++ s)
| EControl hi lo a b :
    ~ In (N_of_ascii c) (map fst short_escapes) ->
    N_of_ascii c = (16 * N.of_nat hi + N.of_nat lo)%N -> hi < 2 -> lo < 16 ->
    nth_error hex hi = Some a -> nth_error hex lo = Some b ->
    escaped c (s_backslash ++ "u00" ++ a ++ b)
| EPlain :
    ~ In (N_of_ascii c) (map fst short_escapes) -> (32 <= N_of_ascii c)%N ->
    escaped c (String c "").
Inductive all_escaped : string -> string -> Prop :=
| AllNil : all_escaped "" ""
| AllCons c r s t : escaped c s -> all_escaped r t -> all_escaped (String c r) (s ++ t).
Definition json_string (s t : string) : Prop := exists u, all_escaped s u /\ t = s_quote ++ u ++ s_quote.

(** Keys that need no quotes. *)
Definition letter (c : ascii) : Prop :=
  (97 <= N_of_ascii c <= 122 \/ 65 <= N_of_ascii c <= 90 \/ N_of_ascii c = 95)%N.
Definition digit (c : ascii) : Prop := (48 <= N_of_ascii c <= 57)%N.
Definition plain_key (k : string) : Prop :=
  (exists c r, list_ascii_of_string k = c :: r /\ letter c /\ Forall (fun c => letter c \/ digit c) r) /\
  ~ In k ["break"; "case"; "catch"; "class"; "const"; "continue"; "debugger"; "default";
          "delete"; "do"; "else"; "export"; "extends"; "false"; "finally"; "for";
          "function"; "if"; "import"; "in"; "instanceof"; "new"; "null"; "return";
          "super"; "switch"; "this"; "throw"; "true"; "try"; "typeof"; "var"; "void";
          "while"; "with"].
Definition key_text (k t : string) : Prop :=
  (plain_key k /\ t = k) \/ (~ plain_key k /\ json_string k t).

(** [page v l]: [l] are the lines of [v].  Composite values start on a line of
    their own. *)
Inductive page : js -> lines -> Prop :=
| PUndefined : page JUndefined (word "undefined")
| PInt n : page (JInt n) (word (decimal n))
| PNumber x : page (JNumber x) (word (f_js F x))
| PString s t : json_string s t -> page (JString s) (word t)
| PArray l items : page_items l items -> page (JArray l) (word "" ++ enclosed "[" "]" items)%list
| PMap l items : page_fields l items -> page (JMap l) (word "" ++ enclosed "{" "}" items)%list
| PObject l items : page_fields l items -> page (JObject l) (word "" ++ enclosed "{" "}" items)%list
| PBool b : page (JBool b) (word "" ++ enclosed "{" "}" nil)%list
with page_items : list js -> list lines -> Prop :=
| PNil : page_items nil nil
| PCons v r l rs : page v l -> page_items r rs -> page_items (v :: r) (item "" l :: rs)
with page_fields : list (string * js) -> list lines -> Prop :=
| PFNil : page_fields nil nil
| PFCons k v r t l rs : key_text k t -> page v l -> page_fields r rs ->
    page_fields ((k, v) :: r) (item (t ++ ": ") l :: rs).
End Ways.

(** The texts of a program. *)
Definition debug_text (F : formats) (l : list stmt) : string :=
  text_of_lines "    " (debug_lines F (program_data l)).
Definition page_text (F : formats) (v : js) (t : string) : Prop :=
  exists ls, page F v ls /\ t = text_of_lines "  " ls.
