(** What lines added at the end of a program can change (src/scanner.rs, src/parser.rs): C87. *)
From Verif Require Import Base F64 Token Ast Scanner Parser Segment SpecLex SpecScan ScanFinal
  StableFinal TestsParser P_Parser P_Driver.
Local Open Scope string_scope.

(** ** C87 *)
Theorem C87_stable : forall U oc c d m s l, sane U -> valid_source ((c ++ [s_nl]) ++ d)%list ->
  parse U oc (c ++ [s_nl])%list = Done (Ok (m ++ [s])%list) ->
  parse U oc ((c ++ [s_nl]) ++ d)%list = Done (Ok l) ->
  exists s' l', l = (m ++ s' :: l')%list.
Proof. exact (fun U oc c d m s l Sn V P Q => stable U Sn oc c d m s l V P Q). Qed.
Print Assumptions C87_stable.
(** Two statements; the lines added belong to the second one and to a third. *)
Definition earlier_lines : list string := ["var n = 0"; "if (n < 1)"; "  print n"].
Definition later_lines : list string := ["  print 2"; "fun f(x)"; "  return x"].
Example C87_example :
  valid_source (source earlier_lines ++ source later_lines)%list /\
  parse sample_unicode true (source earlier_lines) = Done (Ok (program_of earlier_lines)) /\
  parse sample_unicode true (source earlier_lines ++ source later_lines)%list =
    Done (Ok (program_of (earlier_lines ++ later_lines)%list)) /\
  List.length (program_of earlier_lines) = 2 /\ List.length (program_of (earlier_lines ++ later_lines)%list) = 3 /\
  firstn 1 (program_of (earlier_lines ++ later_lines)%list) = firstn 1 (program_of earlier_lines).
Proof.
  parts; try (vm_compute; reflexivity).
  apply check_valid. vm_compute. reflexivity.
Qed.
(** That the last statement stays too is false: an [else], a further entry of a map, or a further line of
    the body belongs to it.  Nor do the lines added have to be a program. *)
Theorem C87_last_refuted : exists c d s s',
  valid_source ((c ++ [s_nl]) ++ d)%list /\
  parse sample_unicode true (c ++ [s_nl])%list = Done (Ok [s]) /\
  parse sample_unicode true ((c ++ [s_nl]) ++ d)%list = Done (Ok [s']) /\ s <> s' /\
  exists es, parse sample_unicode true d = Done (Err es).
Proof.
  exists (segment "if (a) b"), (segment ("else c" ++ s_nl)). eexists. eexists. split; [apply check_valid; vm_compute; reflexivity|].
  split; [vm_compute; reflexivity|]. split; [vm_compute; reflexivity|]. split; [discriminate|].
  eexists. vm_compute. reflexivity.
Qed.
Print Assumptions C87_last_refuted.
(** For the lines of the REPL it is false: the end of its text also ends a statement, so a statement there can
    be the key of an entry of the map before it. *)
Theorem C87_repl_refuted : exists c d s s1 s2,
  valid_source ((c ++ [s_nl]) ++ d)%list /\
  parse_repl_line sample_unicode true (c ++ [s_nl])%list = Done (Ok [s1; s2]) /\
  parse_repl_line sample_unicode true ((c ++ [s_nl]) ++ d)%list = Done (Ok [s]) /\ s <> s1.
Proof.
  exists (segment ("a: 1" ++ s_nl ++ "b \")), (segment (": 2" ++ s_nl)). eexists. eexists. eexists. split; [apply check_valid; vm_compute; reflexivity|].
  split; [vm_compute; reflexivity|]. split; [vm_compute; reflexivity|]. discriminate.
Qed.
Print Assumptions C87_repl_refuted.
