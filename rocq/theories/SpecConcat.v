(** Specification: one program after the other. *)
From Verif Require Import Base F64 Token Ast Parser SpecLex SpecLayout SpecScan SpecGrammar SpecPlace.

(** The first line that is not blank is not indented. *)
Fixpoint flush (ls : list line) : Prop :=
  match ls with
  | nil => True
  | l :: r => match content (body l) with
              | nil => flush r
              | _ => indentation (body l) = 0%N
              end
  end.

(** Tokens that cannot be taken as going on with the statement before. *)
Definition fresh_start (toks : list token) : Prop :=
  ~ starts [Colon; RightBrace; Else; Equal; Terminator] toks /\ ~ entry_here toks.

(** The last statement declares a variable. *)
Definition ends_in_var (l : list stmt) : Prop := exists l0 x s e p, l = l0 ++ [SVar x s e p].

(** The last token before the end is that of the end of a line. *)
Definition ends_line (toks : list token) : Prop :=
  exists toks0 x e, toks = toks0 ++ [x; e] /\ t_type x = Terminator.

(** The result [y] is that of a program that begins with the statements [l] and goes on with a program
    with the result [x], up to positions. *)
Definition goes_on (l : list stmt) (x y : outcome (result (list stmt) parse_error)) : Prop :=
  match x, y with
  | Done (Ok l'), Done (Ok m) => map unplaced m = map unplaced (l ++ l')
  | Done (Err cs), Done (Err cs') => same_messages cs cs'
  | Diverged, Diverged => True
  | _, _ => False
  end.
