(** Properties of programs written as text (src/scanner.rs, src/parser.rs): C76
    and C77.

    [program_text] (SpecWrite.v) writes a tree as text without indentation,
    [chars] cuts an ASCII text into clusters, [knows_ascii] says that the oracle
    for letters and digits is right for ASCII. *)
From Verif Require Import Base F64 Token Ast Scanner Parser Resolver Segment SpecLex SpecTree SpecPrint SpecPlace SpecWrite
  SpecParse ScanFinal ParseProps ParseMore ParseFinal RelabelResolve WriteFinal FlatExact TestsParser P_Parser P_Driver.
Local Open Scope string_scope.

(** ** C76 *)
Theorem C76_parse : forall U oc l, knows_ascii U -> well_formed l -> ascii_program l ->
  exists l', parse U oc (chars (program_text l)) = Done (Ok l') /\ map unplaced l' = map unplaced l.
Proof. exact (fun U oc l K => write_parse U K false oc l). Qed.
Print Assumptions C76_parse.
Theorem C76_parse_repl_line : forall U oc l, knows_ascii U -> well_formed l -> ascii_program l ->
  exists l', parse_repl_line U oc (chars (program_text l)) = Done (Ok l') /\ map unplaced l' = map unplaced l.
Proof. exact (fun U oc l K => write_parse U K true oc l). Qed.
Print Assumptions C76_parse_repl_line.
(** The text determines the program. *)
Theorem C76_injective : forall l l', well_formed l -> ascii_program l -> well_formed l' -> ascii_program l' ->
  program_text l = program_text l' -> map unplaced l = map unplaced l'.
Proof. exact (write_injective sample_unicode sample_knows_ascii). Qed.
Print Assumptions C76_injective.
Example C76_example :
  knows_ascii sample_unicode /\ well_formed (program_of everything) /\ ascii_program (program_of everything) /\
  List.length (program_parts (program_of everything)) = 62 /\
  program_text (program_of ["while (a)"; "  f(b)"; "  print c"]) =
    "while ( a ) { f( b ) " ++ s_nl ++ "print c " ++ s_nl ++ "} ".
Proof.
  parts; [exact sample_knows_ascii|apply (accepted_well_formed sample_unicode sample_sane true (source everything));
    [apply check_valid; vm_compute; reflexivity|left; vm_compute; reflexivity]
    |apply ascii_programb; vm_compute; reflexivity|vm_compute; reflexivity|vm_compute; reflexivity].
Qed.

(** ** C77 *)
Theorem C77_flat : forall U oc gs l, knows_ascii U -> valid_source gs -> accepted U oc gs l ->
  Forall no_empty_first (program_parts l) ->
  exists gs' toks l', valid_source gs' /\ scan_tokens U gs' = Done (Ok toks) /\
    Forall (fun t => t_type t <> Indent /\ t_type t <> Outdent) toks /\
    parse U oc gs' = Done (Ok l') /\ map unplaced l' = map unplaced l.
Proof. exact (fun U oc gs l K => flat_program U K false oc gs l). Qed.
Print Assumptions C77_flat.
Example C77_example :
  accepted sample_unicode true (source everything) (program_of everything) /\
  Forall no_empty_first (program_parts (program_of everything)) /\
  In Indent (map t_type (tokens_of_source (source everything))).
Proof. parts; [left; vm_compute; reflexivity|apply no_empty_firstb; vm_compute; reflexivity|vm_compute; tauto]. Qed.
(** The other way round: a source without indentation never gives a statement
    that starts with an empty map, except as the initialiser of a [for]. *)
Theorem C77_only : forall U oc gs toks l, sane U -> valid_source gs -> scan_tokens U gs = Done (Ok toks) ->
  Forall (fun t => t_type t <> Indent) toks -> accepted U oc gs l ->
  Forall line_ok l /\ Forall lines_ok (program_parts l).
Proof. exact (fun U oc gs toks l Sn V => flat_only U Sn oc gs V toks l). Qed.
Print Assumptions C77_only.
Example C77_only_example :
  accepted sample_unicode true (source ["for ({}.x = 3"; "a; ) print a"; "a: 1, .b = 2"; ""])
    (program_of ["for ({}.x = 3"; "a; ) print a"; "a: 1, .b = 2"; ""]) /\
  List.length (program_parts (program_of ["for ({}.x = 3"; "a; ) print a"; "a: 1, .b = 2"; ""])) = 14 /\
  ~ In Indent (map t_type (tokens_of_source (source ["for ({}.x = 3"; "a; ) print a"; "a: 1, .b = 2"; ""]))).
Proof. parts; [left; vm_compute; reflexivity|vm_compute; reflexivity|vm_compute; intuition discriminate]. Qed.
(** So the condition of C77 is needed: this program has no form without indentation. *)
Theorem C77_needed : exists gs l, valid_source gs /\ accepted sample_unicode true gs l /\
  forall U oc gs' toks l', sane U -> valid_source gs' -> scan_tokens U gs' = Done (Ok toks) ->
    Forall (fun t => t_type t <> Indent) toks -> accepted U oc gs' l' -> map unplaced l' <> map unplaced l.
Proof.
  exists (source ["  {}.x"; "= 3"; ""]), (program_of ["  {}.x"; "= 3"; ""]).
  parts; [apply check_valid; vm_compute; reflexivity|left; vm_compute; reflexivity|].
  exact (fun U oc gs' toks l' Sn V E F A M =>
    empty_line _ (flat_never U oc gs' toks _ l' Sn V E F A M) ltac:(vm_compute; reflexivity)).
Qed.
Print Assumptions C77_needed.
