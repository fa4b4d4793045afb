(** src/parser.rs: the recursive-descent parser, function by function.

    Parser methods are functions of the mutable part of [Parser]
    (src/parser.rs:51-56): [current] and [in_loops].  The token vector and
    [allow_trailing_expression] never change and are section variables.
    [overflow_checks] tells whether the build checks arithmetic overflow (debug
    builds do, release builds wrap); only [self.current - 1] in [previous]
    depends on it.

    Recursion: each method is one definition; calls back to [expression],
    [statement] and [declaration] from inside them go through the section
    variables [expr_rec], [stmt_rec] and [decl_rec], tied by [level] on fuel.
    Loops run on fuel too.  Exhausted fuel is [PFuel]; the theorems show it
    unreachable with the fuel that [parse_tokens] passes. *)
From Verif Require Import Base F64 Token Ast Scanner.

Record pstate : Type := mkP { cur : nat; loops : nat }.

Inductive pres (A : Type) : Type :=
| POk (a : A) (s : pstate)
| PErr (c : cause) (s : pstate)
| PPanic (why : string)
| PFuel.
Arguments POk {A} a s.
Arguments PErr {A} c s.
Arguments PPanic {A} why.
Arguments PFuel {A}.

Definition P (A : Type) : Type := pstate -> pres A.

Definition pret {A} (a : A) : P A := fun s => POk a s.
Definition pfail {A} (c : cause) : P A := fun s => PErr c s.
Definition ppanic {A} (w : string) : P A := fun _ => PPanic w.
Definition pfuel {A} : P A := fun _ => PFuel.
(** Sequencing with the [?] operator: an error returns early. *)
Definition pbind {A B} (m : P A) (f : A -> P B) : P B :=
  fun s => match m s with
           | POk a s1 => f a s1
           | PErr c s1 => PErr c s1
           | PPanic w => PPanic w
           | PFuel => PFuel
           end.
Notation "'plet' x <- m ;; k" := (pbind m (fun x => k))
  (at level 200, x pattern, m at level 100, k at level 200, right associativity).
Notation "'pdo' m ;; k" := (pbind m (fun _ => k))
  (at level 200, m at level 100, k at level 200, right associativity).

(** [slice::contains] on token types *)
Definition tt_mem (k : token_type) (ks : list token_type) : bool :=
  existsb (tt_eqb k) ks.

(** src/parser.rs:37-48 *)
Definition CALL_PRIMARY_TOKENS : list token_type :=
  [TFalse; TTrue; Nil; Number; TString; Identifier; Fun; LeftParen; LeftBrace;
   Super].

Section Parse.
Variable toks : list token.
Variable allow_trailing : bool.
Variable overflow_checks : bool.

(** ** Token access, src/parser.rs:1042-1284 *)

(** src/parser.rs:1130-1140 *)
Definition peek (s : pstate) : option token := nth_error toks (cur s).
Definition peek_next (s : pstate) : option token := nth_error toks (cur s + 1).
Definition peek_next_next (s : pstate) : option token :=
  nth_error toks (cur s + 2).

(** src/parser.rs:1192-1197 *)
Definition is_at_end (s : pstate) : bool :=
  match peek s with
  | None => true
  | Some t => tt_eqb (t_type t) Eof
  end.

(** src/parser.rs:1123-1128 *)
Definition advance_st (s : pstate) : pstate :=
  if is_at_end s then s else mkP (cur s + 1) (loops s).
Definition advance : P unit := fun s => POk tt (advance_st s).

(** Does the token, if any, have this type / one of these types? *)
Definition tok_is (o : option token) (k : token_type) : bool :=
  match o with None => false | Some t => tt_eqb (t_type t) k end.
Definition tok_in (o : option token) (ks : list token_type) : bool :=
  match o with None => false | Some t => tt_mem (t_type t) ks end.

(** src/parser.rs:1043-1085 *)
Definition check_st (k : token_type) (s : pstate) : bool :=
  negb (is_at_end s) && tok_is (peek s) k.
Definition check_next_st (k : token_type) (s : pstate) : bool :=
  negb (is_at_end s) && tok_is (peek_next s) k.
Definition check_next_next_st (k : token_type) (s : pstate) : bool :=
  negb (is_at_end s) && tok_is (peek_next_next s) k.
Definition check_any_of_st (ks : list token_type) (s : pstate) : bool :=
  negb (is_at_end s) && tok_in (peek s) ks.
Definition check_next_any_of_st (ks : list token_type) (s : pstate) : bool :=
  negb (is_at_end s) && tok_in (peek_next s) ks.

(** Read-only use of the state. *)
Definition gets {A} (f : pstate -> A) : P A := fun s => POk (f s) s.
Definition check k := gets (check_st k).

(** src/parser.rs:1088-1095 *)
Definition match_token (k : token_type) : P bool :=
  plet found <- check k ;;
  if found then pdo advance ;; pret true else pret false.

(** src/parser.rs:1099-1121 *)
Definition matches (ks : list token_type)
  : P (option (token_type * source_loc)) :=
  plet o <- gets (fun s => match peek s with
                           | None => None
                           | Some t => if tt_mem (t_type t) ks
                                       then Some (t_type t, tloc t) else None
                           end) ;;
  match o with
  | Some r => pdo advance ;; pret (Some r)
  | None => pret None
  end.

(** src/parser.rs:1142-1144.  [self.current - 1] underflows at 0: a panic with
    overflow checks, otherwise the index wraps to [usize::MAX] and [get]
    returns [None]. *)
Definition previous : P (option token) :=
  fun s => match cur s with
           | O => if overflow_checks
                  then PPanic "attempt to subtract with overflow"
                  else POk None s
           | S n => POk (nth_error toks n) s
           end.

(** src/parser.rs:1146-1153 *)
Definition previous_source_loc : P source_loc :=
  plet o <- previous ;;
  pret (match o with Some t => tloc t | None => default_loc end).

(** src/parser.rs:1155-1168 *)
Definition peek_source_loc : P source_loc :=
  plet o <- gets peek ;;
  match o with
  | Some t => pret (tloc t)
  | None => plet o' <- previous ;;
            pret (match o' with Some t => tloc t | None => default_loc end)
  end.

(** src/parser.rs:1170-1179; the caller returns the error. *)
Definition error_from_last {A} (msg : string) : P A :=
  plet o <- previous ;;
  plet l <- previous_source_loc ;;
  pfail (match o with
         | Some t => cause_at l (t_lexeme t) msg
         | None => cause_new l msg
         end).

(** src/parser.rs:1181-1190 *)
Definition error_from_peek {A} (msg : string) : P A :=
  plet o <- gets peek ;;
  plet l <- peek_source_loc ;;
  pfail (match o with
         | Some t => cause_at l (t_lexeme t) msg
         | None => cause_new l msg
         end).

(** src/parser.rs:1235-1244 *)
Definition consume_any_of (ks : list token_type) (msg : string) : P unit :=
  plet o <- matches ks ;;
  match o with
  | Some _ => pret tt
  | None => error_from_peek msg
  end.

(** src/parser.rs:1199-1208 *)
Definition consume (k : token_type) (msg : string) : P unit :=
  consume_any_of [k] msg.

(** src/parser.rs:1213-1233 *)
Definition consume_identifier (msg : string) : P (string * source_loc) :=
  plet o <- gets peek ;;
  match o with
  | Some t =>
    if tt_eqb (t_type t) Identifier
    then pdo advance ;; pret (t_lexeme t, tloc t)
    else error_from_peek msg
  | None => error_from_peek msg
  end.

(** src/parser.rs:1246-1262 *)
Definition consume_begin_block (msg : string) : P token_type :=
  plet o <- matches [Terminator; LeftBrace] ;;
  match o with
  | Some (Terminator, _) =>
    pdo consume Indent "Expect indent to begin block" ;;
    pret Outdent
  | Some (LeftBrace, _) => pret RightBrace
  | Some _ => ppanic "unreachable"
  | None => error_from_peek msg
  end.

(** src/parser.rs:1264-1284 *)
Definition consume_end_block (end_block : token_type) (after : string)
  : P unit :=
  plet o <- matches [end_block] ;;
  match o with
  | Some _ => pret tt
  | None =>
    match end_block with
    | Outdent => error_from_peek ("Expect outdent" ++ after)
    | RightBrace => error_from_peek ("Expect '}'" ++ after)
    | _ => ppanic "Should never have an end block be any other token"
    end
  end.

(** src/parser.rs:1286-1305; the loop of [synchronize] on fuel *)
Definition is_sync_type (k : token_type) : bool :=
  match k with
  | Class | Fun | Var | For | If | While | Print | Return => true
  | _ => false
  end.
Fixpoint synchronize_loop (fuel : nat) : P unit :=
  fun s =>
    if is_at_end s then POk tt s
    else match fuel with
         | O => PFuel
         | S n =>
           (plet o <- previous ;;
            let stop := match o with
                        | Some t => is_sync_type (t_type t)
                        | None => false
                        end in
            if stop then pret tt
            else pdo advance ;; synchronize_loop n) s
         end.
Definition synchronize : P unit :=
  pdo advance ;; synchronize_loop (S (length toks)).

(** Fuel for loops that consume a token in every iteration. *)
Definition loop_fuel : nat := S (length toks).

(** ** Expressions and function bodies *)
Section Knot.
Variable expr_rec : P expr.   (* expression *)
Variable stmt_rec : P stmt.   (* statement *)
Variable decl_rec : P stmt.   (* declaration *)

(** src/parser.rs:427-429, the loop of [finish_block] *)
Fixpoint block_loop (fuel : nat) (end_block : token_type) (acc : list stmt)
  : P (list stmt) :=
  plet stop <- gets (fun s => negb (negb (check_st end_block s)
                                    && negb (is_at_end s))) ;;
  if stop then pret acc
  else match fuel with
       | O => pfuel
       | S n => plet d <- decl_rec ;; block_loop n end_block (acc ++ [d])
       end.

(** src/parser.rs:421-434 *)
Definition finish_block (end_block : token_type) : P (list stmt) :=
  plet statements <- block_loop loop_fuel end_block nil ;;
  pdo consume_end_block end_block " after block." ;;
  pret statements.

(** src/parser.rs:205-223, the parameter loop of [function_definition] *)
Fixpoint param_loop (fuel : nat) (acc : list param) : P (list param) :=
  match fuel with
  | O => pfuel
  | S n =>
    plet (name, l) <-
      consume_identifier "Expect identifier in function parameters." ;;
    if 255 <=? length acc then
      pfail (cause_at l name "Cannot have more than 255 parameters.")
    else
      let acc' := acc ++ [mkParam name l] in
      plet more <- match_token Comma ;;
      if more then param_loop n acc' else pret acc'
  end.

(** src/parser.rs:194-240 *)
Definition function_definition (l : source_loc) : P fun_def :=
  pdo consume_any_of [LeftParen; LeftParenAbutting]
      "Expect '(' after function name." ;;
  plet empty <- check RightParen ;;
  plet parameters <- (if negb empty then param_loop loop_fuel nil
                      else pret nil) ;;
  pdo consume RightParen "Expect ')' after parameters." ;;
  plet end_block <-
    consume_begin_block "Expect '{' or indent before function body." ;;
  plet body <- finish_block end_block ;;
  pret (FunDef parameters body PlainFunction l).

(** src/parser.rs:992-1040, the loop of [literal_map] *)
Fixpoint literal_map_loop (fuel : nat) (m : list (string * expr))
  : P (list (string * expr)) :=
  plet go <- gets (fun s => check_any_of_st [Identifier; TString] s
                            && check_next_st Colon s) ;;
  if negb go then pret m
  else match fuel with
  | O => pfuel
  | S n =>
    plet o <- gets peek ;;
    match o with
    | None => ppanic "check() ensures this"
    | Some t =>
      let key_loc := tloc t in
      plet key <-
        match t_type t with
        | Identifier => pret (t_lexeme t)
        | TString =>
          match t_string t with
          | Some v => pret v
          | None => ppanic
              "primary: expected float literal to include parsed string"
          end
        | _ => ppanic "check() ensures this is unreachable"
        end ;;
      pdo advance ;;
      pdo consume Colon "Expect ':' after map key" ;;
      plet value <- expr_rec ;;
      let '(m', old) := map_insert m key value in
      match old with
      | Some _ => pfail (cause_at key_loc key "Duplicate key in literal map.")
      | None =>
        plet more <- gets (fun s =>
          check_st Comma s ||
          check_st Terminator s &&
          (check_next_any_of_st [Identifier; TString] s &&
           check_next_next_st Colon s || check_next_st RightBrace s)) ;;
        if more then pdo advance ;; literal_map_loop n m'
        else pret m'
      end
    end
  end.
Definition literal_map : P (list (string * expr)) :=
  literal_map_loop loop_fuel nil.

(** src/parser.rs:943-954, the element loop of array literals *)
Fixpoint array_loop (fuel : nat) (acc : list expr) : P (list expr) :=
  match fuel with
  | O => pfuel
  | S n =>
    plet e <- expr_rec ;;
    let acc' := acc ++ [e] in
    plet comma <- match_token Comma ;;
    if negb comma then pret acc'
    else
      plet close <- check RightBracket ;;
      if close then pret acc' else array_loop n acc'
  end.

(** src/parser.rs:840-990 *)
Definition primary : P expr :=
  plet o <- gets peek ;;
  match o with
  | None => ppanic "primary: reached the end of the token stream unexpectedly"
  | Some t =>
    match t_type t with
    | TFalse => pdo advance ;; pret (EBool false)
    | TTrue => pdo advance ;; pret (EBool true)
    | Nil => pdo advance ;; pret ENil
    | Number =>
      match t_float t with
      | None => ppanic
          "primary: expected float literal to include parsed float"
      | Some x => pdo advance ;; pret (ENumber x)
      end
    | TString =>
      plet colon <- gets (check_next_st Colon) ;;
      if colon then plet m <- literal_map ;; pret (EMap m)
      else match t_string t with
           | None => ppanic
               "primary: expected float literal to include parsed string"
           | Some v => pdo advance ;; pret (EString v)
           end
    | Identifier | This =>
      plet colon <- gets (check_next_st Colon) ;;
      if colon then plet m <- literal_map ;; pret (EMap m)
      else pdo advance ;;
           pret (EVariable (t_lexeme t) var_placeholder (tloc t))
    | Fun =>
      let l := tloc t in
      pdo advance ;;
      plet named <- match_token Identifier ;;
      if named then error_from_last
        "Expect function in expression context to not have a name."
      else plet f <- function_definition l ;; pret (EFunction f)
    | LeftParen | LeftParenAbutting =>
      pdo advance ;;
      plet e <- expr_rec ;;
      pdo consume RightParen "Missing close parenthesis." ;;
      pret (EGrouping e)
    | LeftBrace =>
      pdo advance ;;
      plet m <- literal_map ;;
      pdo consume RightBrace "Expect '}' after map entries." ;;
      pret (EMap m)
    | LeftBracket =>
      pdo advance ;;
      plet empty <- check RightBracket ;;
      plet elements <- (if negb empty then array_loop loop_fuel nil
                        else pret nil) ;;
      pdo consume RightBracket "Expect ']' after array elements." ;;
      pret (EArray elements)
    | Super =>
      let l := tloc t in
      pdo advance ;;
      pdo consume Dot "Expect '.' after 'super'." ;;
      plet (id, _) <- consume_identifier "Expect superclass method name." ;;
      pret (ESuper var_placeholder id l)
    | _ =>
      pdo advance ;;
      error_from_last "Expect expression."
    end
  end.

(** src/parser.rs:789-800 and 813-823, the argument loops *)
Fixpoint args_loop (fuel : nat) (acc : list expr) : P (list expr) :=
  match fuel with
  | O => pfuel
  | S n =>
    if 255 <=? length acc then
      error_from_peek "Cannot have more than 255 arguments."
    else
      plet e <- expr_rec ;;
      let acc' := acc ++ [e] in
      plet comma <- match_token Comma ;;
      if comma then args_loop n acc' else pret acc'
  end.

(** src/parser.rs:781-805 *)
Definition finish_call (e : expr) (l : source_loc) : P expr :=
  plet empty <- check RightParen ;;
  plet args <- (if negb empty then args_loop loop_fuel nil else pret nil) ;;
  pdo consume RightParen "Expect ')' after arguments." ;;
  pret (ECall e args l).

(** src/parser.rs:807-826 *)
Definition finish_call_without_parens (e : expr) (l : source_loc) : P expr :=
  plet args <- args_loop loop_fuel nil ;;
  pret (ECall e args l).

(** src/parser.rs:828-838 *)
Definition finish_get_index (e : expr) (l : source_loc) : P expr :=
  plet i <- expr_rec ;;
  pdo consume RightBracket "Expect ']' after index." ;;
  pret (EGetIndex e i l).

(** src/parser.rs:745-776, the loop of [call] *)
Fixpoint call_loop (fuel : nat) (e : expr) : P expr :=
  match fuel with
  | O => pfuel
  | S n =>
    plet o <- matches [Dot; LeftParenAbutting; LeftBracket] ;;
    match o with
    | Some (Dot, l) =>
      plet (id, _) <- consume_identifier "Expect property name after '.'." ;;
      call_loop n (EGet e id l)
    | Some (LeftParenAbutting, l) =>
      plet e' <- finish_call e l ;; call_loop n e'
    | Some (LeftBracket, l) =>
      plet e' <- finish_get_index e l ;; call_loop n e'
    | Some _ => ppanic "call: unexpected token type"
    | None =>
      plet juxta <- gets (check_any_of_st CALL_PRIMARY_TOKENS) ;;
      if juxta then
        plet l <- peek_source_loc ;;
        plet e' <- finish_call_without_parens e l ;;
        call_loop n e'
      else pret e
    end
  end.

(** src/parser.rs:742-779 *)
Definition call : P expr :=
  plet e <- primary ;; call_loop loop_fuel e.

(** src/parser.rs:726-740, recursive, on fuel *)
Fixpoint unary_fuel (fuel : nat) : P expr :=
  match fuel with
  | O => pfuel
  | S n =>
    plet o <- matches [Bang; Minus] ;;
    match o with
    | None => call
    | Some (k, l) =>
      plet rhs <- unary_fuel n ;;
      match k with
      | Bang => pret (EUnary UNot rhs l)
      | Minus => pret (EUnary UMinus rhs l)
      | _ => ppanic "unreachable"
      end
    end
  end.
Definition unary : P expr := unary_fuel loop_fuel.

(** src/parser.rs:703-721 *)
Fixpoint multiplication_loop (fuel : nat) (e : expr) : P expr :=
  match fuel with
  | O => pfuel
  | S n =>
    plet o <- matches [Slash; Star] ;;
    match o with
    | None => pret e
    | Some (k, l) =>
      plet rhs <- unary ;;
      plet op <- match k with
                 | Slash => pret BDivide
                 | Star => pret BMultiply
                 | _ => ppanic "unreachable"
                 end ;;
      multiplication_loop n (EBinary e op rhs l)
    end
  end.
(** src/parser.rs:700-724 *)
Definition multiplication : P expr :=
  plet e <- unary ;; multiplication_loop loop_fuel e.

(** src/parser.rs:677-695 *)
Fixpoint addition_loop (fuel : nat) (e : expr) : P expr :=
  match fuel with
  | O => pfuel
  | S n =>
    plet o <- matches [Minus; Plus] ;;
    match o with
    | None => pret e
    | Some (k, l) =>
      plet rhs <- multiplication ;;
      plet op <- match k with
                 | Minus => pret BMinus
                 | Plus => pret BPlus
                 | _ => ppanic "unreachable"
                 end ;;
      addition_loop n (EBinary e op rhs l)
    end
  end.
(** src/parser.rs:674-698 *)
Definition addition : P expr :=
  plet e <- multiplication ;; addition_loop loop_fuel e.

(** src/parser.rs:644-669 *)
Fixpoint comparison_loop (fuel : nat) (e : expr) : P expr :=
  match fuel with
  | O => pfuel
  | S n =>
    plet o <- matches [Less; Greater; LessEqual; GreaterEqual] ;;
    match o with
    | None => pret e
    | Some (k, l) =>
      plet rhs <- addition ;;
      plet op <- match k with
                 | Less => pret BLess
                 | LessEqual => pret BLessEqual
                 | Greater => pret BGreater
                 | GreaterEqual => pret BGreaterEqual
                 | _ => ppanic "unreachable"
                 end ;;
      comparison_loop n (EBinary e op rhs l)
    end
  end.
(** src/parser.rs:641-672 *)
Definition comparison : P expr :=
  plet e <- addition ;; comparison_loop loop_fuel e.

(** src/parser.rs:618-636 *)
Fixpoint equality_loop (fuel : nat) (e : expr) : P expr :=
  match fuel with
  | O => pfuel
  | S n =>
    plet o <- matches [BangEqual; EqualEqual] ;;
    match o with
    | None => pret e
    | Some (k, l) =>
      plet rhs <- comparison ;;
      plet op <- match k with
                 | BangEqual => pret BNotEqual
                 | EqualEqual => pret BEqual
                 | _ => ppanic "unreachable"
                 end ;;
      equality_loop n (EBinary e op rhs l)
    end
  end.
(** src/parser.rs:615-639 *)
Definition equality : P expr :=
  plet e <- comparison ;; equality_loop loop_fuel e.

(** src/parser.rs:603-610 *)
Fixpoint and_loop (fuel : nat) (e : expr) : P expr :=
  match fuel with
  | O => pfuel
  | S n =>
    plet m <- match_token And ;;
    if m then plet rhs <- equality ;; and_loop n (ELogical e LAnd rhs)
    else pret e
  end.
(** src/parser.rs:600-613 *)
Definition and_ : P expr := plet e <- equality ;; and_loop loop_fuel e.

(** src/parser.rs:588-595 *)
Fixpoint or_loop (fuel : nat) (e : expr) : P expr :=
  match fuel with
  | O => pfuel
  | S n =>
    plet m <- match_token Or ;;
    if m then plet rhs <- and_ ;; or_loop n (ELogical e LOr rhs)
    else pret e
  end.
(** src/parser.rs:585-598 *)
Definition or_ : P expr := plet e <- and_ ;; or_loop loop_fuel e.

(** src/parser.rs:546-580, the match on the parsed left-hand side *)
Definition assign_target (e rhs : expr) (l : source_loc) : P expr :=
  match e with
  | EGet o p _ => pret (ESet o p rhs l)
  | EGetIndex a i _ => pret (ESetIndex a i rhs l)
  | EVariable x _ _ =>
    if String.eqb x "this"
    then pfail (cause_at l "=" "Invalid assignment target.")
    else pret (EAssign x var_placeholder rhs l)
  | _ => pfail (cause_at l "=" "Invalid assignment target.")
  end.

(** src/parser.rs:523-583 *)
Definition assignment : P expr :=
  plet indented <- match_token Indent ;;
  plet e <-
    (if indented then
       plet e <- or_ ;;
       pdo match_token Terminator ;;
       pdo consume Outdent "Expect outdent after indented expression." ;;
       pret e
     else or_) ;;
  plet o <- matches [Equal] ;;
  match o with
  | None => pret e
  | Some (_, l) =>
    plet rhs <- expr_rec ;;
    assign_target e rhs l
  end.

(** src/parser.rs:519-521 *)
Definition expression : P expr := assignment.

(** ** Statements *)

(** src/parser.rs:501-517 *)
Definition expression_statement : P stmt :=
  plet e <- expression ;;
  plet need <- gets (fun s => negb (allow_trailing && is_at_end s)
                              || check_st Terminator s) ;;
  pdo (if need then consume Terminator "Expect newline after expression."
       else pret tt) ;;
  pret (SExpression e).

(** src/parser.rs:242-284 *)
Definition finish_var_declaration (for_loop_init : bool) : P stmt :=
  plet (id, l) <- consume_identifier "Expect variable name." ;;
  plet o <- matches [Equal] ;;
  plet (e, needs_terminator) <-
    match o with
    | None => pret (ENil, true)
    | Some _ =>
      pdo match_token Terminator ;;
      plet needs_term <- gets (fun s => negb (check_st Indent s)
                                        && negb (check_st LeftBrace s)) ;;
      plet e <- expression ;;
      pret (e, needs_term)
    end ;;
  pdo (if for_loop_init then
         consume Semicolon "Expect ';' after var declaration."
       else if (needs_terminator : bool) then
         consume Terminator "Expect newline after var declaration."
       else pdo match_token Terminator ;; pret tt) ;;
  pret (SVar id slot_placeholder e l).

(** src/parser.rs:183-192 *)
Definition finish_fun_declaration : P named_fun :=
  plet (id, l) <- consume_identifier "Expect identifier after 'fun'." ;;
  plet f <- function_definition l ;;
  pret (NamedFun id f).

(** Assignment to [fun_decl.fun_def.fun_type] *)
Definition set_fun_type (ft : fun_type) (f : named_fun) : named_fun :=
  match f with
  | NamedFun n (FunDef ps b _ l) => NamedFun n (FunDef ps b ft l)
  end.
Definition fun_name (f : named_fun) : string :=
  match f with NamedFun n _ => n end.

(** src/parser.rs:150-170, the member loop of [finish_class_declaration].
    [finish_fun_declaration] always returns [Stmt::Fun], so the model drops the
    wrapper and the dead error branch (164-168). *)
Fixpoint method_loop (fuel : nat) (end_block : token_type)
         (acc : list named_fun) : P (list named_fun) :=
  plet stop <- gets (fun s => negb (negb (check_st end_block s)
                                    && negb (is_at_end s))) ;;
  if stop then pret acc
  else match fuel with
  | O => pfuel
  | S n =>
    plet is_class_method <- match_token Class ;;
    plet f <- finish_fun_declaration ;;
    let ft := if (is_class_method : bool) then ClassMethod
              else if String.eqb (fun_name f) "init" then Initializer
              else Method in
    method_loop n end_block (acc ++ [set_fun_type ft f])
  end.

(** src/parser.rs:127-181 *)
Definition finish_class_declaration : P stmt :=
  plet (id, l) <- consume_identifier "Expect identifier after 'class'." ;;
  plet less <- match_token Less ;;
  plet superclass <-
    (if (less : bool) then
       plet (sid, sl) <- consume_identifier "Expect superclass name." ;;
       pret (Some (EVariable sid var_placeholder sl))
     else pret None) ;;
  plet end_block <-
    consume_begin_block "Expect '{' or indent after class name." ;;
  plet methods <- method_loop loop_fuel end_block nil ;;
  pdo consume_end_block end_block " after class method body." ;;
  pret (SClass (ClassDef id superclass methods l)).

(** src/parser.rs:317-330 *)
Definition finish_break_statement (l : source_loc) : P stmt :=
  plet n <- gets loops ;;
  if n =? 0
  then error_from_last "Found break statement outside of loop body"
  else pdo consume Terminator "Expect newline after break." ;;
       pret (SBreak l).

(** src/parser.rs:332-345 *)
Definition finish_continue_statement (l : source_loc) : P stmt :=
  plet n <- gets loops ;;
  if n =? 0
  then error_from_last "Found continue statement outside of loop body"
  else pdo consume Terminator "Expect newline after continue." ;;
       pret (SContinue l).

(** [self.in_loops.checked_add(1).expect(..)]: the counter is a [usize]
    bounded by the number of nested loops, so the overflow panic is not
    modelled.  [self.in_loops -= 1] below zero would panic. *)
Definition incr_loops : P unit := fun s => POk tt (mkP (cur s) (S (loops s))).
Definition decr_loops_st (s : pstate) : option pstate :=
  match loops s with O => None | S n => Some (mkP (cur s) n) end.

(** src/parser.rs:482-499.  [body_result] is a [Result] that is returned after
    the decrement; only the [?] on [consume_begin_block] returns before it. *)
Definition loop_body_statement : P stmt :=
  pdo incr_loops ;;
  plet block <- gets (fun s => check_st Terminator s || check_st LeftBrace s) ;;
  plet body <-
    (if (block : bool) then
       plet end_block <-
         consume_begin_block "Expect '{' or indent before loop body." ;;
       pret (plet b <- finish_block end_block ;; pret (SBlock b))
     else pret stmt_rec) ;;
  fun s => match body s with
           | POk b s1 => match decr_loops_st s1 with
                         | Some s2 => POk b s2
                         | None => PPanic "attempt to subtract with overflow"
                         end
           | PErr c s1 => match decr_loops_st s1 with
                          | Some s2 => PErr c s2
                          | None => PPanic "attempt to subtract with overflow"
                          end
           | PPanic w => PPanic w
           | PFuel => PFuel
           end.

(** src/parser.rs:347-392 *)
Definition finish_for_statement : P stmt :=
  pdo consume_any_of [LeftParen; LeftParenAbutting] "Expect '(' after for." ;;
  plet semi <- match_token Semicolon ;;
  plet initializer <-
    (if (semi : bool) then pret None
     else
       plet var <- match_token Var ;;
       if (var : bool) then plet d <- finish_var_declaration true ;; pret (Some d)
       else plet d <- expression_statement ;; pret (Some d)) ;;
  plet no_cond <- check Semicolon ;;
  plet condition <- (if (no_cond : bool) then pret (EBool true)
                     else expression) ;;
  pdo consume Semicolon "Expect ';' after for-loop condition." ;;
  plet no_inc <- check RightParen ;;
  plet increment <- (if (no_inc : bool) then pret None
                     else plet e <- expression ;; pret (Some e)) ;;
  pdo consume RightParen "Expect ')' after for-loop increment." ;;
  plet loop_body <- loop_body_statement ;;
  let while_loop := match increment with
                    | None => SWhile condition loop_body
                    | Some inc => SWhileIncrement condition loop_body inc
                    end in
  match initializer with
  | None => pret while_loop
  | Some init => pret (SBlock [init; while_loop])
  end.

(** src/parser.rs:394-419 *)
Definition finish_if_statement : P stmt :=
  pdo consume_any_of [LeftParen; LeftParenAbutting] "Expect '(' after if." ;;
  plet condition <- expression ;;
  pdo consume RightParen "Expect ')' after if condition." ;;
  plet block <- gets (fun s => check_st Terminator s || check_st LeftBrace s) ;;
  plet then_stmt <-
    (if (block : bool) then
       plet end_block <-
         consume_begin_block "Expect '{' or indent before if body." ;;
       plet b <- finish_block end_block ;; pret (SBlock b)
     else stmt_rec) ;;
  plet has_else <- match_token Else ;;
  plet else_stmt <-
    (if (has_else : bool) then plet e <- stmt_rec ;; pret (Some e)
     else pret None) ;;
  pret (SIf condition then_stmt else_stmt).

(** src/parser.rs:436-445 *)
Definition finish_print_statement : P stmt :=
  plet e <- expression ;;
  pdo consume Terminator "Expect newline after print value." ;;
  pret (SPrint e).

(** src/parser.rs:447-463 *)
Definition finish_return_statement (l : source_loc) : P stmt :=
  plet none <- check Terminator ;;
  plet e <- (if (none : bool) then pret ENil else expression) ;;
  pdo consume Terminator "Expect newline after return expression." ;;
  pret (SReturn e l).

(** src/parser.rs:465-479 *)
Definition finish_while_statement : P stmt :=
  pdo consume_any_of [LeftParen; LeftParenAbutting] "Expect '(' after while." ;;
  plet condition <- expression ;;
  pdo consume RightParen "Expect ')' after while condition." ;;
  plet body <- loop_body_statement ;;
  pret (SWhile condition body).

(** src/parser.rs:286-315 *)
Definition statement : P stmt :=
  plet o <- matches [Break; Continue; For; If; LeftBrace; Print; Return;
                     While] ;;
  match o with
  | None => expression_statement
  | Some (Break, l) => finish_break_statement l
  | Some (Continue, l) => finish_continue_statement l
  | Some (For, _) => finish_for_statement
  | Some (If, _) => finish_if_statement
  | Some (LeftBrace, _) =>
    plet b <- finish_block RightBrace ;; pret (SBlock b)
  | Some (Print, _) => finish_print_statement
  | Some (Return, l) => finish_return_statement l
  | Some (While, _) => finish_while_statement
  | Some _ => ppanic "statement: unexpected token type"
  end.

(** src/parser.rs:112-125 *)
Definition declaration : P stmt :=
  plet is_class <- match_token Class ;;
  if (is_class : bool) then finish_class_declaration
  else
    plet is_fun <- gets (fun s => check_st Fun s
                                  && check_next_st Identifier s) ;;
    if (is_fun : bool) then
      pdo consume Fun "Consuming Fun token that we just checked; this error should never happen" ;;
      plet f <- finish_fun_declaration ;;
      pret (SFun f)
    else
      plet is_var <- match_token Var ;;
      if (is_var : bool) then finish_var_declaration false
      else statement.

End Knot.

(** The recursive knot: [level n] is (expression, statement, declaration) with
    [n] nested re-entries left. *)
Record knot : Type := mkKnot { k_expr : P expr; k_stmt : P stmt; k_decl : P stmt }.
Fixpoint level (n : nat) : knot :=
  match n with
  | O => mkKnot pfuel pfuel pfuel
  | S m =>
    let k := level m in
    mkKnot (expression (k_expr k) (k_decl k))
           (statement (k_expr k) (k_stmt k) (k_decl k))
           (declaration (k_expr k) (k_stmt k) (k_decl k))
  end.

Definition nesting_fuel : nat := S (S (length toks)).

(** src/parser.rs:82-92, the loop of [parse] *)
Fixpoint parse_loop (fuel : nat) (stmts : list stmt) (errs : list cause)
         (s : pstate) : outcome (list stmt * list cause * pstate) :=
  if is_at_end s then Done (stmts, errs, s)
  else match fuel with
       | O => OutOfFuel
       | S n =>
         match k_decl (level nesting_fuel) s with
         | POk d s1 => parse_loop n (stmts ++ [d]) errs s1
         | PErr c s1 =>
           match synchronize s1 with
           | POk _ s2 => parse_loop n stmts (errs ++ [c]) s2
           | PErr c' s2 => Panicked "synchronize cannot fail"
           | PPanic w => Panicked w
           | PFuel => OutOfFuel
           end
         | PPanic w => Panicked w
         | PFuel => OutOfFuel
         end
       end.

(** src/parser.rs:79-103 [Parser::parse] *)
Definition parse_tokens : outcome (result (list stmt) parse_error) :=
  olet r <- parse_loop loop_fuel nil nil (mkP 0 0) ;;
  let '(stmts, errs, s) := r in
  match consume Eof "Expected end of file" s with
  | POk _ _ => Done (match errs with
                     | nil => Ok stmts
                     | _ :: _ => Err errs
                     end)
  | PErr c _ => Done (Err (errs ++ [c]))
  | PPanic w => Panicked w
  | PFuel => OutOfFuel
  end.

(** src/parser.rs:105-110 [Parser::parse_expression] *)
Definition parse_expression_tokens : outcome (result expr parse_error) :=
  match (plet e <- k_expr (level nesting_fuel) ;;
         pdo consume Eof "Expected end of file" ;;
         pret e) (mkP 0 0) with
  | POk e _ => Done (Ok e)
  | PErr c _ => Done (Err [c])
  | PPanic w => Panicked w
  | PFuel => OutOfFuel
  end.

End Parse.

(** ** Entry points, src/parser.rs:10-33 *)
Section Entry.
Variable U : unicode.
Variable overflow_checks : bool.

Definition parse_with {A} (f : list token -> outcome (result A parse_error))
           (gs : list string) : outcome (result A parse_error) :=
  olet r <- scan_tokens U gs ;;
  match r with
  | Err e => Done (Err e)
  | Ok toks => f toks
  end.

(** src/parser.rs:10-16 *)
Definition parse (gs : list string) : outcome (result (list stmt) parse_error) :=
  parse_with (fun toks => parse_tokens toks false overflow_checks) gs.
(** src/parser.rs:18-24 *)
Definition parse_repl_line (gs : list string)
  : outcome (result (list stmt) parse_error) :=
  parse_with (fun toks => parse_tokens toks true overflow_checks) gs.
(** src/parser.rs:27-33 *)
Definition parse_expression (gs : list string)
  : outcome (result expr parse_error) :=
  parse_with (fun toks => parse_expression_tokens toks false overflow_checks) gs.
End Entry.
