(** src/token.rs, src/source_loc.rs, src/error.rs: tokens, locations, errors. *)
From Verif Require Import Base F64.

(** src/token.rs:4-64 *)
Inductive token_type : Type :=
| Indent | Outdent | Terminator
| LeftParen | LeftParenAbutting | RightParen | LeftBrace | RightBrace
| LeftBracket | RightBracket | Colon | Comma | Dot | Minus | Plus | Semicolon
| Slash | Star
| Bang | BangEqual | Equal | EqualEqual | Greater | GreaterEqual | Less
| LessEqual
| Identifier | TString | Number
| And | Break | Class | Continue | Else | TFalse | Fun | For | If | Nil | Or
| Print | Return | Super | This | TTrue | Var | While
| Eof.

(** [#[derive(PartialEq)]] on TokenType, src/token.rs:4 *)
Definition token_type_eq_dec (a b : token_type) : {a = b} + {a <> b}.
Proof. decide equality. Defined.
Definition tt_eqb (a b : token_type) : bool :=
  if token_type_eq_dec a b then true else false.

(** src/source_loc.rs:14-18; line is a u32, column a u16 *)
Record source_loc : Type := mkLoc { loc_line : N; loc_column : N }.
(** src/source_loc.rs:26-30 *)
Definition default_loc : source_loc := mkLoc 1 1.

(** src/token.rs:66-74 *)
Record token : Type := mkToken {
  t_type : token_type;
  t_lexeme : string;
  t_string : option string;
  t_float : option f64;
  t_line : N;
  t_column : N
}.

(** [SourceLoc::from(&Token)], src/source_loc.rs:32-36 *)
Definition tloc (t : token) : source_loc := mkLoc (t_line t) (t_column t).

(** src/error.rs:25-30 *)
Record cause : Type := mkCause {
  c_loc : source_loc;
  c_token : option string;
  c_message : string
}.
(** [ParseErrorCause::new], src/error.rs:33-39 *)
Definition cause_new (l : source_loc) (m : string) : cause := mkCause l None m.
(** [ParseErrorCause::new_with_location], src/error.rs:41-51 *)
Definition cause_at (l : source_loc) (t m : string) : cause :=
  mkCause l (Some t) m.

(** [ParseError] (src/error.rs:3-12) is its list of causes. *)
Definition parse_error : Type := list cause.
