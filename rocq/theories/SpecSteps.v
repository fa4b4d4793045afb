(** The loop of the scanner one round at a time (src/scanner.rs:90-94). *)
From Verif Require Import Base F64 Token Ast Scanner.

(** [steps U n s r]: [n] rounds of the loop of [scan_tokens] lead from [s] to [r]. *)
Fixpoint steps (U : unicode) (n : nat) (s r : scanner) : Prop :=
  match n with
  | O => r = s
  | S m => is_at_end s = false /\ exists s1, scan_token U (set_start (peek_index s) s) = Done s1 /\ steps U m s1 r
  end.
(** How much is still to be read, in clusters. *)
Definition unread (s : scanner) : nat := length (sc_gi s).
(** The same in all but the text: what was found so far and the state of the line. *)
Definition same_so_far (s t : scanner) : Prop :=
  sc_tokens s = sc_tokens t /\ sc_errors s = sc_errors t /\ sc_indentation s = sc_indentation t /\
  sc_start s = sc_start t /\ sc_current s = sc_current t /\ sc_line s = sc_line t /\ sc_column s = sc_column t /\
  sc_start_column s = sc_start_column t /\ sc_eof s = sc_eof t /\ sc_bol_spaces s = sc_bol_spaces t /\
  sc_is_bol s = sc_is_bol t /\ sc_only_comment s = sc_only_comment t /\ sc_is_cont s = sc_is_cont t /\
  sc_follow_cont s = sc_follow_cont t /\ sc_abutting s = sc_abutting t.
