(** Vocabulary for streams that can fail. *)
From Verif Require Import Base.
Local Open Scope string_scope.

(** A stream that takes [room] bytes ([None]: any number) takes all of [s]. *)
Definition fits (room : option nat) (s : string) : Prop :=
  match room with None => True | Some n => slen s <= n end.
(** [s] is all that it takes. *)
Definition full (room : option nat) (s : string) : Prop :=
  match room with None => False | Some n => slen s = n end.
Definition begins (s t : string) : Prop := exists r, t = s ++ r.
