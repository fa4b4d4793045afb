(** Vocabulary for the properties of the command line, the REPL and the
    WebAssembly entry point. *)
From Verif Require Import Base F64 Token Ast SpecShow Show.
Local Open Scope string_scope.

(** ** What is assumed of the texts that come from outside *)
(** Quoted strings can be read back, whatever follows them, and start with a
    quotation mark. *)
Definition quotes (f : string -> string) : Prop :=
  (forall s t r r', f s ++ r = f t ++ r' -> s = t /\ r = r') /\
  forall s, exists r, f s = String (ascii_of_nat 34) r.
(** No colon, comma, newline or quotation mark. *)
Fixpoint lacks (bad : list ascii) (s : string) : bool :=
  match s with
  | "" => true
  | String c r => negb (existsb (Ascii.eqb c) bad) && lacks bad r
  end.
Definition delimiters : list ascii := [":"%char; ","%char; ascii_of_nat 10; ascii_of_nat 34].
(** Different values of number tokens are written differently, without
    delimiters. *)
Definition writes_numbers (f : f64 -> string) : Prop :=
  (forall x, literal x -> lacks delimiters (f x) = true) /\
  forall x y, literal x -> literal y -> f x = f y -> x = y.

(** ** Rendered errors *)
Definition position (l : source_loc) : string := decimal (loc_line l) ++ ":" ++ decimal (loc_column l).
(** On the command line *)
Definition error_line (c : cause) : string :=
  "[line " ++ position (c_loc c) ++ "] Error" ++
  match c_token c with Some t => " at '" ++ t ++ "'" | None => "" end ++
  ": " ++ c_message c ++ s_nl.
(** In JavaScript *)
Definition error_paragraph (F : formats) (c : cause) : string :=
  position (c_loc c) ++ match c_token c with Some t => " at " ++ f_str F t | None => "" end ++
  ": " ++ c_message c ++ s_nl ++ s_nl.

Definition contains (p s : string) : Prop := exists a b, s = a ++ p ++ b.
