(** The top level of the parser one round at a time (src/parser.rs:82-92). *)
From Verif Require Import Base F64 Token Ast Scanner Parser.

(** What one round of the loop of [parse] adds: a statement, or an error. *)
Inductive item : Type :=
| Parsed (d : stmt)
| Failed (c : cause).

Section Rounds.
Variable toks : list token.
Variables trailing oc : bool.

(** src/parser.rs:83-91: a declaration, after which an error is followed by [synchronize]. *)
Definition one_round (s : pstate) : option (item * pstate) :=
  match k_decl (level toks trailing oc (nesting_fuel toks)) s with
  | POk d s1 => Some (Parsed d, s1)
  | PErr c s1 => match synchronize toks oc s1 with POk _ s2 => Some (Failed c, s2) | _ => None end
  | _ => None
  end.

(** [rounds s l s']: from [s] the loop adds the items [l] and is then at [s']. *)
Inductive rounds : pstate -> list item -> pstate -> Prop :=
| rounds_none s : rounds s nil s
| rounds_one s i s1 l s2 : is_at_end toks s = false -> one_round s = Some (i, s1) -> rounds s1 l s2 -> rounds s (i :: l) s2.
End Rounds.

Definition statements_of (l : list item) : list stmt := flat_map (fun i => match i with Parsed d => [d] | Failed _ => nil end) l.
Definition errors_of (l : list item) : list cause := flat_map (fun i => match i with Parsed _ => nil | Failed c => [c] end) l.

(** An expression, read from a state. *)
Definition expression_at (toks : list token) (trailing oc : bool) : P expr := k_expr (level toks trailing oc (nesting_fuel toks)).
(** A statement or declaration. *)
Definition declaration_at (toks : list token) (trailing oc : bool) : P stmt := k_decl (level toks trailing oc (nesting_fuel toks)).
(** The state in which a result leaves the parser. *)
Definition left_at {A} (r : pres A) : option pstate :=
  match r with POk _ s | PErr _ s => Some s | PPanic _ | PFuel => None end.
