(** Specification: a program entered piece by piece. *)
From Verif Require Import Base F64 Token Ast Scanner Parser SpecLex SpecLayout SpecScan SpecGrammar SpecConcat Show SpecDriver.

(** The text [g] is a program with the tree [l], ends with a newline, is not indented, does not start as if it
    went on with something, and what comes after it is not taken as going on with it. *)
Definition piece (U : unicode) (oc : bool) (g : list string) (l : list stmt) : Prop :=
  valid_source g /\ parse U oc g = Done (Ok l) /\
  exists es toks, lexes U g es /\ whole_lines es /\ flush (source_lines es) /\
    scan_tokens U g = Done (Ok toks) /\ fresh_start toks /\ (~ ends_in_var l \/ ends_line toks).

(** What is answered to several pieces, taken together. *)
Fixpoint together (rs : list (result (list stmt) parse_error)) : result (list stmt) parse_error :=
  match rs with
  | nil => Ok nil
  | r :: rest =>
    match r, together rest with
    | Ok x, Ok y => Ok (x ++ y)
    | Ok _, Err f => Err f
    | Err e, Ok _ => Err e
    | Err e, Err f => Err (e ++ f)
    end
  end.
Local Open Scope string_scope.

(** What the REPL writes after a line. *)
Definition answer_out (F : formats) (r : result (list stmt) parse_error) : string :=
  match r with Ok l => debug_program F l ++ s_nl ++ "> " | Err _ => "> " end.
Definition answer_err (r : result (list stmt) parse_error) : string :=
  match r with Ok _ => "" | Err cs => cat (map error_line cs) end.
