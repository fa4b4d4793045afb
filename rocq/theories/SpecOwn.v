(** Statements and errors have places of their own (C28, C103). *)
From Verif Require Import Base F64 Token Ast SpecTree.
Local Open Scope string_scope.
Local Open Scope list_scope.

(** The tokens [toks] are those of the statements [l], one after the other, and an end: all locations in a statement are
    those of its own tokens. *)
Definition own_tokens (toks : list token) (l : list stmt) : Prop :=
  exists tss eof, toks = concat tss ++ [eof] /\ t_type eof = Eof /\
    Forall2 (fun ts st => Forall (located ts) (parts st)) tss l.

(** The error [c] of the resolver is at the token [t] and names it.  (When the table of globals is full, an assignment is
    reported at its [=], with the name.) *)
Definition points_at (t : token) (c : cause) : Prop :=
  c_loc c = tloc t /\
  (c_token c = Some (t_lexeme t) \/ (t_type t = Equal /\ c_message c = "Too many local variables in function.")).
(** From index [lo] on, in strictly increasing order. *)
Inductive points_in (toks : list token) : nat -> list cause -> Prop :=
| pi_nil : forall lo, points_in toks lo nil
| pi_cons : forall lo j t c cs, lo <= j -> nth_error toks j = Some t -> points_at t c ->
    points_in toks (S j) cs -> points_in toks lo (c :: cs).
