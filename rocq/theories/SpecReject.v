(** The errors of the parser: which message, at which token, and where parsing
    goes on.  Over tokens, with the grammar of SpecGrammar.v for whatever was
    read before the error; independent of the parser model.

    Every phrase of the grammar has a table entry [steps_of]: what is expected
    in turn, and the message when it is missing. *)
From Verif Require Import Base F64 Token Ast SpecGrammar.

Inductive phrase : Type :=
| Of (N : sym)                            (* a nonterminal of the grammar *)
| FunctionBody                            (* parameters and body *)
| OperatorTail (level : nat)              (* more operators of this level *)
| CallSuffix                              (* calls, properties and indices after a primary *)
| ArgumentsAfter (n : nat)                (* after [n] arguments *)
| ParametersAfter (n : nat)               (* after [n] parameters *)
| EntriesAfter (seen : list string)       (* after entries with these keys *)
| LoopBody.
Coercion Of : sym >-> phrase.

Inductive step : Type :=
| Skip                                    (* any token *)
| Need (leaves : bool) (ks : list token_type) (msg : string)
                                          (* one of these tokens, or the error [msg] there;
                                             [leaves]: see [failure] *)
| Reject (c : cause)                      (* the error [c] *)
| Sub (p : phrase)
| Last (p : phrase)                       (* the rest is [p] *)
| TargetThen (k : expr -> list token -> list step)
                                          (* an assignment target; then, knowing its tree and
                                             the tokens after it *)
| Look (k : list token -> list step).     (* by the tokens ahead *)

(** The first token has one of these types. *)
Definition ahead (ks : list token_type) (i : list token) : bool :=
  match i with nil => false | t :: _ => existsb (tt_eqb (t_type t)) ks end.
Definition entry_ahead (i : list token) : bool :=
  ahead [Identifier; TString] i && ahead [Colon] (tl i).
Definition separator_ahead (i : list token) : bool :=
  ahead [Comma] i ||
  ahead [Terminator] i && (entry_ahead (tl i) || ahead [RightBrace] (tl i)).
Definition key (t : token) : string :=
  match t_type t, t_string t with TString, Some k => k | _, _ => t_lexeme t end.
(** The error [msg] at the token [t]. *)
Definition error_at (t : token) (msg : string) : cause := cause_at (tloc t) (t_lexeme t) msg.

Definition need (ks : list token_type) (msg : string) : step := Need false ks msg.
Definition maybe (k : token_type) : step := Look (fun i => if ahead [k] i then [Skip] else nil).
(** [st] unless the token [k] is ahead. *)
Definition unless (k : token_type) (st : list step) : step :=
  Look (fun i => if ahead [k] i then nil else st).
Definition parens : list token_type := [LeftParen; LeftParenAbutting].
(** The token ahead is read, and is wrong. *)
Definition wrong (msg : string) : step :=
  Look (fun i => match i with nil => nil | t :: _ => [Skip; Reject (error_at t msg)] end).
Definition closing (k : token_type) (what : string) : string :=
  (match k with Outdent => "Expect outdent" | _ => "Expect '}'" end ++ what)%string.
(** A block opens by an indented line or a brace. *)
Definition opening (leaves : bool) (msg : string) (body : token_type -> step) : step :=
  Look (fun i =>
    if ahead [Terminator] i
    then [Skip; Need leaves [Indent] "Expect indent to begin block"; body Outdent]
    else if ahead [LeftBrace] i then [Skip; body RightBrace]
    else [Need leaves nil msg]).
Definition block (msg : string) : step := opening false msg (fun k => Last (Statements k)).
Definition can_assign (e : expr) : bool :=
  match e with
  | EVariable x _ _ => negb (String.eqb x "this")
  | EGet _ _ _ | EGetIndex _ _ _ => true
  | _ => false
  end.

Section Errors.
(** The last expression statement may lack its line end. *)
Variable trailing : bool.
(** The token before the end. *)
Variable ending : token.

Definition steps_of (inside_loop : bool) (p : phrase) : list step :=
  match p with
  | Of Expression =>
    [TargetThen (fun e r => match r with
       | t :: _ =>
         if ahead [Equal] r then
           [Skip; Sub Expression] ++
           if can_assign e then nil
           else [Reject (cause_at (tloc t) "=" "Invalid assignment target.")]
         else nil
       | nil => nil
       end)]
  | Of Target =>
    [Look (fun i =>
       if ahead [Indent] i
       then [Skip; Sub (Binary 0); maybe Terminator;
             need [Outdent] "Expect outdent after indented expression."]
       else [Last (Binary 0)])]
  | Of (Binary n) =>
    if n <? top_level then [Sub (Binary (S n)); Last (OperatorTail n)] else [Last Unary]
  | OperatorTail n =>
    [Look (fun i => match i with
       | t :: _ => match operator n (t_type t) with
                   | Some _ => [Skip; Sub (Binary (S n)); Last (OperatorTail n)]
                   | None => nil
                   end
       | nil => nil
       end)]
  | Of Unary => [Look (fun i => if ahead [Bang; Minus] i then [Skip; Last Unary] else [Last Call])]
  | Of Call => [Sub Primary; Last CallSuffix]
  | CallSuffix =>
    [Look (fun i =>
       if ahead [Dot] i then
         [Skip; need [Identifier] "Expect property name after '.'."; Last CallSuffix]
       else if ahead [LeftParenAbutting] i then
         [Skip; unless RightParen [Sub (ArgumentsAfter 0)];
          need [RightParen] "Expect ')' after arguments."; Last CallSuffix]
       else if ahead [LeftBracket] i then
         [Skip; Sub Expression; need [RightBracket] "Expect ']' after index."; Last CallSuffix]
       else if ahead argument_start i then [Sub (ArgumentsAfter 0); Last CallSuffix]
       else nil)]
  | ArgumentsAfter n =>
    if max_parameters <=? n then [need nil "Cannot have more than 255 arguments."]
    else [Sub Expression;
          Look (fun i => if ahead [Comma] i then [Skip; Last (ArgumentsAfter (S n))] else nil)]
  | Of Primary =>
    [Look (fun i =>
       if entry_ahead i then [Last (EntriesAfter nil)]
       else if ahead [Fun] i then
         [Skip; Look (fun i =>
            if ahead [Identifier] i
            then [wrong "Expect function in expression context to not have a name."]
            else [Last FunctionBody])]
       else if ahead parens i then
         [Skip; Sub Expression; need [RightParen] "Missing close parenthesis."]
       else if ahead [LeftBrace] i then
         [Skip; Sub (EntriesAfter nil); need [RightBrace] "Expect '}' after map entries."]
       else if ahead [LeftBracket] i then
         [Skip; unless RightBracket [Sub Elements];
          need [RightBracket] "Expect ']' after array elements."]
       else if ahead [Super] i then
         [Skip; need [Dot] "Expect '.' after 'super'.";
          need [Identifier] "Expect superclass method name."]
       else if ahead [TFalse; TTrue; Nil; Number; TString; Identifier; This] i then nil
       else if ahead [Eof] i then [Reject (error_at ending "Expect expression.")]
       else [wrong "Expect expression."])]
  | Of Elements =>
    [Sub Expression;
     Look (fun i => if ahead [Comma] i then [Skip; unless RightBracket [Last Elements]] else nil)]
  | EntriesAfter seen =>
    [Look (fun i => match i with
       | t :: _ =>
         if entry_ahead i then
           [Skip; Skip; Sub Expression] ++
           if existsb (String.eqb (key t)) seen
           then [Reject (cause_at (tloc t) (key t) "Duplicate key in literal map.")]
           else [Look (fun i => if separator_ahead i
                                then [Skip; Last (EntriesAfter (key t :: seen))] else nil)]
         else nil
       | nil => nil
       end)]
  | ParametersAfter n =>
    [Look (fun i =>
       if ahead [Identifier] i then
         if max_parameters <=? n then [wrong "Cannot have more than 255 parameters."]
         else [Skip; Look (fun i => if ahead [Comma] i
                                    then [Skip; Last (ParametersAfter (S n))] else nil)]
       else [need [Identifier] "Expect identifier in function parameters."])]
  | FunctionBody =>
    [need parens "Expect '(' after function name.";
     unless RightParen [Sub (ParametersAfter 0)];
     need [RightParen] "Expect ')' after parameters.";
     block "Expect '{' or indent before function body."]
  | Of (Statements k) =>
    [Look (fun i =>
       if ahead [k] i then nil
       else if ahead [Eof] i then [need nil (closing k " after block.")]
       else [Sub Declaration; Last (Statements k)])]
  | Of (VarDeclaration for_init) =>
    let close := if for_init then need [Semicolon] "Expect ';' after var declaration."
                 else need [Terminator] "Expect newline after var declaration." in
    [need [Identifier] "Expect variable name.";
     Look (fun i =>
       if ahead [Equal] i then
         [Skip; maybe Terminator;
          Look (fun j => [Sub Expression;
                          if negb for_init && ahead [Indent; LeftBrace] j
                          then maybe Terminator else close])]
       else [close])]
  | Of (Methods k) =>
    [Look (fun i =>
       if ahead [k] i then nil
       else if ahead [Eof] i then [need nil (closing k " after class method body.")]
       else [maybe Class; need [Identifier] "Expect identifier after 'fun'.";
             Sub FunctionBody; Last (Methods k)])]
  | Of Branch =>
    [Look (fun i => if ahead [Terminator; LeftBrace] i then [block ""] else [Last Statement])]
  | LoopBody =>
    [Look (fun i => if ahead [Terminator; LeftBrace] i
                    then [opening true "" (fun k => Last (Statements k))] else [Last Statement])]
  | Of ForInit =>
    [Look (fun i =>
       if ahead [Semicolon] i then nil
       else if ahead [Var] i then [Skip; Last (VarDeclaration true)]
       else [Last ExpressionStatement])]
  | Of ExpressionStatement =>
    [Sub Expression;
     Look (fun i => if trailing && ahead [Eof] i then nil
                    else [need [Terminator] "Expect newline after expression."])]
  | Of Statement =>
    [Look (fun i =>
       if ahead [Break] i then
         if inside_loop then [Skip; need [Terminator] "Expect newline after break."]
         else [wrong "Found break statement outside of loop body"]
       else if ahead [Continue] i then
         if inside_loop then [Skip; need [Terminator] "Expect newline after continue."]
         else [wrong "Found continue statement outside of loop body"]
       else if ahead [For] i then
         [Skip; need parens "Expect '(' after for."; Sub ForInit;
          unless Semicolon [Sub Expression];
          need [Semicolon] "Expect ';' after for-loop condition.";
          unless RightParen [Sub Expression];
          need [RightParen] "Expect ')' after for-loop increment."; Last LoopBody]
       else if ahead [If] i then
         [Skip; need parens "Expect '(' after if."; Sub Expression;
          need [RightParen] "Expect ')' after if condition."; Sub Branch;
          Look (fun i => if ahead [Else] i then [Skip; Last Statement] else nil)]
       else if ahead [While] i then
         [Skip; need parens "Expect '(' after while."; Sub Expression;
          need [RightParen] "Expect ')' after while condition."; Last LoopBody]
       else if ahead [Print] i then
         [Skip; Sub Expression; need [Terminator] "Expect newline after print value."]
       else if ahead [Return] i then
         [Skip; unless Terminator [Sub Expression];
          need [Terminator] "Expect newline after return expression."]
       else if ahead [LeftBrace] i then [Skip; Last (Statements RightBrace)]
       else [Last ExpressionStatement])]
  | Of Declaration =>
    [Look (fun i =>
       if ahead [Class] i then
         [Skip; need [Identifier] "Expect identifier after 'class'.";
          Look (fun i => if ahead [Less] i
                         then [Skip; need [Identifier] "Expect superclass name."] else nil);
          opening false "Expect '{' or indent after class name." (fun k => Last (Methods k))]
       else if ahead [Fun] i && ahead [Identifier] (tl i) then [Skip; Skip; Last FunctionBody]
       else if ahead [Var] i then [Skip; Last (VarDeclaration false)]
       else [Last Statement])]
  | Of (BinaryTail _ _) | Of (CallTail _) | Of Arguments | Of Entries | Of Parameters
  | Of (Function _) | Of Block | Of Condition | Of Increment | Of Program => nil
  end.

(** The error, the tokens left, and whether the place counts as inside a loop
    from now on: that of a loop whose indented body is missing does. *)
Record failure : Type := mkFailure { f_cause : cause; f_left : list token; f_loop : bool }.

(** [p] is there. *)
Definition parses (b : bool) (p : phrase) (i r : list token) : Prop :=
  match p with
  | Of N => exists v, derives trailing b N i v r
  | FunctionBody => exists l v, derives trailing b (Function l) i v r
  | OperatorTail n => exists e v, derives trailing b (BinaryTail n e) i v r
  | CallSuffix => exists e v, derives trailing b (CallTail e) i v r
  | ArgumentsAfter n =>
    exists es, derives trailing b Arguments i (VEs es) r /\ n + List.length es <= max_parameters
  | ParametersAfter n =>
    exists ps, derives trailing b Parameters i (VPs ps) r /\ n + List.length ps <= max_parameters
  | EntriesAfter seen =>
    exists m, derives trailing b Entries i (VM m) r /\ NoDup (map fst m) /\
      (forall k, In k (map fst m) -> ~ In k seen)
  | LoopBody => exists v, derives trailing true Branch i v r
  end.
Definition inside (b : bool) (p : phrase) : bool := match p with LoopBody => true | _ => b end.

(** Following the steps on the tokens [i] ends in the failure [f]. *)
Inductive rejects : bool -> list step -> list token -> failure -> Prop :=
| rj_skip : forall b st t i f, rejects b st i f -> rejects b (Skip :: st) (t :: i) f
| rj_need : forall b lv ks msg st t i f, ahead ks (t :: i) = true -> rejects b st i f ->
    rejects b (Need lv ks msg :: st) (t :: i) f
| rj_missing : forall b lv ks msg st t i, ahead ks (t :: i) = false ->
    rejects b (Need lv ks msg :: st) (t :: i) (mkFailure (error_at t msg) (t :: i) lv)
| rj_error : forall b c st i, rejects b (Reject c :: st) i (mkFailure c i false)
| rj_sub : forall b p st i r f, parses b p i r -> rejects b st r f -> rejects b (Sub p :: st) i f
| rj_sub_bad : forall b p st i f, rejects (inside b p) (steps_of (inside b p) p) i f ->
    rejects b (Sub p :: st) i f
| rj_last : forall b p st i f, rejects (inside b p) (steps_of (inside b p) p) i f ->
    rejects b (Last p :: st) i f
| rj_target : forall b k st i e r f, derives trailing b Target i (VE e) r ->
    rejects b (k e r ++ st) r f -> rejects b (TargetThen k :: st) i f
| rj_target_bad : forall b k st i f, rejects b (steps_of b Target) i f ->
    rejects b (TargetThen k :: st) i f
| rj_look : forall b k st i f, rejects b (k i ++ st) i f -> rejects b (Look k :: st) i f.

(** ** After an error *)
(** Tokens are skipped through the next one of these, or up to the end. *)
Definition resumes : list token_type := [Class; Fun; Var; For; If; While; Print; Return].
Inductive recovers : list token -> list token -> Prop :=
| rv_end : forall i, starts [Eof] i -> recovers i i
| rv_after : forall t i, In (t_type t) resumes -> recovers (t :: i) i
| rv_skip : forall t i r, ~ In (t_type t) (Eof :: resumes) -> recovers i r -> recovers (t :: i) r.

(** The errors of a program, in order. *)
Inductive reports : bool -> list token -> list cause -> Prop :=
| rp_end : forall b i, starts [Eof] i -> reports b i nil
| rp_declaration : forall b i st r cs, derives trailing b Declaration i (VS st) r ->
    reports b r cs -> reports b i cs
| rp_error : forall b i f r cs, ~ starts [Eof] i -> rejects b (steps_of b Declaration) i f ->
    recovers (f_left f) r -> reports (b || f_loop f) r cs -> reports b i (f_cause f :: cs).
End Errors.

(** The token before the end. *)
Fixpoint before_end (toks : list token) : option token :=
  match toks with
  | nil | [_] => None
  | [t; _] => Some t
  | _ :: i => before_end i
  end.
(** The errors of the program with these tokens. *)
Definition program_errors (trailing : bool) (toks : list token) (cs : list cause) : Prop :=
  match before_end toks with
  | Some t => reports trailing t false toks cs
  | None => cs = nil
  end.
(** The error of the expression with these tokens. *)
Definition expression_error (trailing : bool) (toks : list token) (c : cause) : Prop :=
  exists t f, before_end toks = Some t /\
    rejects trailing t false [Sub Expression; need [Eof] "Expected end of file"] toks f /\
    c = f_cause f.
(** Parsing of [i] resumes at [r]: after the next keyword, or at the end. *)
Definition resumes_at (i r : list token) : Prop :=
  exists p, Forall (fun t => ~ In (t_type t) resumes) p /\
    ((exists t, In (t_type t) resumes /\ i = p ++ t :: r) \/ (starts [Eof] r /\ i = p ++ r)).
