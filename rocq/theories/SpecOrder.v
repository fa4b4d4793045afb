(** The order of the statements of a program (C104).  Independent of the resolver model. *)
From Verif Require Import Base F64 Token Ast SpecResolve.
Local Open Scope list_scope.

(** At the beginning of a program. *)
Definition at_top : ctx := mkCtx AtTop OutsideClass nil nil nil.
(** The global names that a program mentions or declares, each once. *)
Definition global_names (l : list stmt) : list string := add_all nil (flat_map mention (program_nodes at_top l)).
(** No scope has too many names. *)
Definition within_bounds (l : list stmt) : Prop :=
  Forall size_rule (program_nodes at_top l) /\ (N.of_nat (List.length (global_names l)) <= scope_limit)%N.
(** The statement reads no name in its own initializer, with nothing declared before. *)
Definition order_free (st : stmt) : Prop := Forall initializer_rule (nodes at_top st).
