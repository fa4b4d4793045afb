(** src/parser.rs:58-110: a [Parser] as a value that is used directly, by any number of calls of its two public
    methods, on any vector of tokens. *)
From Verif Require Import Base F64 Token Ast Scanner Parser.

Section Api.
Variable toks : list token.
Variables trailing oc : bool.

(** src/parser.rs:79-103 [Parser::parse] on a parser in any state; also returns the state left behind. *)
Definition parser_parse (s : pstate) : outcome (pstate * result (list stmt) parse_error) :=
  olet r <- parse_loop toks trailing oc (loop_fuel toks) nil nil s ;;
  let '(stmts, errs, s1) := r in
  match consume toks oc Eof "Expected end of file" s1 with
  | POk _ s2 => Done (s2, match errs with
                          | nil => Ok stmts
                          | _ :: _ => Err errs
                          end)
  | PErr c s2 => Done (s2, Err (errs ++ [c]))
  | PPanic w => Panicked w
  | PFuel => OutOfFuel
  end.

(** src/parser.rs:105-110 [Parser::parse_expression] on a parser in any state. *)
Definition parser_parse_expression (s : pstate) : outcome (pstate * result expr parse_error) :=
  match (plet e <- k_expr (level toks trailing oc (nesting_fuel toks)) ;;
         pdo consume toks oc Eof "Expected end of file" ;;
         pret e) s with
  | POk e s1 => Done (s1, Ok e)
  | PErr c s1 => Done (s1, Err [c])
  | PPanic w => Panicked w
  | PFuel => OutOfFuel
  end.

(** A parser used several times. *)
Inductive request : Type := AskParse | AskExpression.
Inductive reply : Type :=
| GotStatements (r : result (list stmt) parse_error)
| GotExpression (r : result expr parse_error).
Definition parser_call (c : request) (s : pstate) : outcome (pstate * reply) :=
  match c with
  | AskParse => olet r <- parser_parse s ;; Done (fst r, GotStatements (snd r))
  | AskExpression => olet r <- parser_parse_expression s ;; Done (fst r, GotExpression (snd r))
  end.
Fixpoint calls_from (cs : list request) (s : pstate) : outcome (list reply) :=
  match cs with
  | nil => Done nil
  | c :: more =>
    olet r <- parser_call c s ;;
    olet rs <- calls_from more (fst r) ;;
    Done (snd r :: rs)
  end.
(** src/parser.rs:59-77: [Parser::new(toks)], or [with_trailing_expression(toks)], followed by the calls. *)
Definition parser_calls (cs : list request) : outcome (list reply) := calls_from cs (mkP 0 0).
End Api.

(** A [Scanner] used several times: [Scanner::new(source)] followed by calls of [scan_tokens]
    (src/scanner.rs:67-107). *)
Fixpoint scans_from (U : unicode) (n : nat) (s : scanner) : outcome (list (result (list token) parse_error)) :=
  match n with
  | O => Done nil
  | S m =>
    olet r <- scan_tokens_from U s ;;
    olet rs <- scans_from U m (fst r) ;;
    Done (snd r :: rs)
  end.
Definition scanner_calls (U : unicode) (gs : list string) (n : nat) : outcome (list (result (list token) parse_error)) :=
  scans_from U n (scanner_new gs).
