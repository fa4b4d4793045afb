(** The messages of all errors, and what is assumed of a source text when
    errors are told apart by their text. *)
From Verif Require Import Base Token.
Local Open Scope string_scope.

(** Of the scanner, besides "Unexpected token: " followed by a cluster *)
Definition scan_messages : list string :=
  ["Illegal tab character; all whitespace must be spaces";
   "Unexpected character: '" ++ s_backslash ++ "'";
   "Unterminated string.";
   "Outdent does not match any previous indentation level"].
(** Of the parser *)
Definition parse_messages : list string :=
  ["Cannot have more than 255 arguments.";
   "Cannot have more than 255 parameters.";
   "Duplicate key in literal map.";
   "Expect '(' after for.";
   "Expect '(' after function name.";
   "Expect '(' after if.";
   "Expect '(' after while.";
   "Expect ')' after arguments.";
   "Expect ')' after for-loop increment.";
   "Expect ')' after if condition.";
   "Expect ')' after parameters.";
   "Expect ')' after while condition.";
   "Expect '.' after 'super'.";
   "Expect ';' after for-loop condition.";
   "Expect ';' after var declaration.";
   "Expect ']' after array elements.";
   "Expect ']' after index.";
   "Expect '{' or indent after class name.";
   "Expect '{' or indent before function body.";
   "Expect '}' after map entries.";
   "Expect '}' after block.";
   "Expect '}' after class method body.";
   "Expect expression.";
   "Expect function in expression context to not have a name.";
   "Expect identifier after 'class'.";
   "Expect identifier after 'fun'.";
   "Expect identifier in function parameters.";
   "Expect indent to begin block";
   "Expect newline after break.";
   "Expect newline after continue.";
   "Expect newline after expression.";
   "Expect newline after print value.";
   "Expect newline after return expression.";
   "Expect newline after var declaration.";
   "Expect outdent after indented expression.";
   "Expect outdent after block.";
   "Expect outdent after class method body.";
   "Expect property name after '.'.";
   "Expect superclass method name.";
   "Expect superclass name.";
   "Expect variable name.";
   "Expected end of file";
   "Found break statement outside of loop body";
   "Found continue statement outside of loop body";
   "Invalid assignment target.";
   "Missing close parenthesis."].
(** Of the resolver *)
Definition resolve_messages : list string :=
  ["A class cannot inherit from itself.";
   "Cannot read local variable in its own initializer.";
   "Cannot return a value from an initializer.";
   "Cannot return from top-level code.";
   "Cannot use 'super' in a class with no superclass.";
   "Cannot use 'super' outside of a class.";
   "Cannot use 'this' outside of a class.";
   "Too many local variables in function.";
   "Variable with this name already declared in this scope."].

Definition scan_cause (gs : list string) (c : cause) : Prop :=
  c_token c = None /\
  (In (c_message c) scan_messages \/
   exists g, In g gs /\ c_message c = "Unexpected token: " ++ g).
Definition parse_cause (c : cause) : Prop := c_token c <> None /\ In (c_message c) parse_messages.
Definition resolve_cause (c : cause) : Prop := c_token c <> None /\ In (c_message c) resolve_messages.

(** Text segmentation (UAX #29, rules GB3-GB5): a newline is in no cluster but
    LF and CR LF. *)
Fixpoint has_newline (s : string) : bool :=
  match s with
  | EmptyString => false
  | String c r => Ascii.eqb c (ascii_of_nat 10) || has_newline r
  end.
Definition breaks_lines (gs : list string) : Prop :=
  forall g, In g gs -> has_newline g = true -> g = s_nl \/ g = s_crlf.
