(** Properties of the initial parts of a program (src/parser.rs, src/resolver.rs): C85. *)
From Verif Require Import Base F64 Token Ast Scanner Parser Resolver Segment SpecLex SpecScan ScanFinal
  PrefixFinal TestsParser P_Parser P_Driver.
Local Open Scope string_scope.

(** ** C85 *)
Theorem C85_parse : forall U oc gs l k, sane U -> valid_source gs -> parse U oc gs = Done (Ok l) ->
  exists a b, gs = (a ++ b)%list /\ parse U oc a = Done (Ok (firstn k l)).
Proof. exact (fun U oc gs l k Sn V P => parse_prefix U Sn oc gs l k V P). Qed.
Print Assumptions C85_parse.
Theorem C85_parse_repl_line : forall U oc gs l k, sane U -> valid_source gs -> parse_repl_line U oc gs = Done (Ok l) ->
  exists a b, gs = (a ++ b)%list /\ parse_repl_line U oc a = Done (Ok (firstn k l)).
Proof. exact (fun U oc gs l k Sn V P => parse_repl_prefix U Sn oc gs l k V P). Qed.
Print Assumptions C85_parse_repl_line.
Theorem C85_resolve : forall l l' k, resolve l = Done (Ok l') -> resolve (firstn k l) = Done (Ok (firstn k l')).
Proof. exact resolve_prefix. Qed.
Print Assumptions C85_resolve.
(** Three statements, two of them with blocks that end together: the first two are the program
    that stops where the third starts. *)
Definition three_statements : list string :=
  ["var n = 0"; "fun f(x)"; "  if (x > 1)"; "    print x"; "while (n < 3) f(n)"].
Example C85_example :
  valid_source (source three_statements) /\
  parse sample_unicode true (source three_statements) = Done (Ok (program_of three_statements)) /\
  List.length (program_of three_statements) = 3 /\
  parse sample_unicode true (source (firstn 4 three_statements)) = Done (Ok (firstn 2 (program_of three_statements))) /\
  parse sample_unicode true (source (firstn 1 three_statements)) = Done (Ok (firstn 1 (program_of three_statements))) /\
  (exists es, parse sample_unicode true (source (firstn 3 three_statements)) = Done (Err es)) /\
  (exists l', resolve (program_of three_statements) = Done (Ok l') /\
    resolve (firstn 2 (program_of three_statements)) = Done (Ok (firstn 2 l')) /\ List.length l' = 3).
Proof.
  parts; try (vm_compute; reflexivity).
  - apply check_valid. vm_compute. reflexivity.
  - eexists. vm_compute. reflexivity.
  - eexists. split; [vm_compute; reflexivity|]. split; vm_compute; reflexivity.
Qed.
