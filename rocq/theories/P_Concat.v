(** Properties of programs one after the other (src/scanner.rs, src/parser.rs): C78.

    [flush], [fresh_start], [ends_in_var], [ends_line], [goes_on]: SpecConcat.v. *)
From Verif Require Import Base F64 Token Ast Scanner Parser Segment SpecLex SpecScan SpecGrammar SpecPlace SpecConcat ScanFinal ScanErrors
  ParseProps ConcatFinal TestsParser P_Parser P_Driver.
Local Open Scope string_scope.

(** ** C78 *)
Theorem C78_concatenation : forall U oc a es ta la b es', sane U -> valid_source a -> valid_source b ->
  lexes U a es -> whole_lines es -> lexes U b es' -> flush (source_lines es') ->
  scan_tokens U a = Done (Ok ta) -> parse U oc a = Done (Ok la) ->
  (forall tb, scan_tokens U b = Done (Ok tb) -> fresh_start tb) ->
  ~ ends_in_var la \/ ends_line ta ->
  goes_on la (parse U oc b) (parse U oc (a ++ b)%list) /\
  goes_on la (parse_repl_line U oc b) (parse_repl_line U oc (a ++ b)%list).
Proof.
  exact (fun U oc a es ta la b es' Sn V V' L W L' F S P Fr En => parse_concat U Sn a b V V' es es' L W L' F oc ta la S P Fr En).
Qed.
Print Assumptions C78_concatenation.
Definition first_part : list string := ["class A"; "  go()"; "    print 1"].
Definition second_part : list string := [""; "// a comment"; "  "; "fun f()"; "  return 2"; "print f()"].
Definition wrong_part : list string := ["print 1"; "return )"; "var x = 2"].
Example C78_example :
  let a := source first_part in let b := source second_part in let w := source wrong_part in
  lexes sample_unicode a (elements (lns first_part ++ s_nl)) /\ whole_lines (elements (lns first_part ++ s_nl)) /\
  lexes sample_unicode b (elements (lns second_part ++ s_nl)) /\ flush (source_lines (elements (lns second_part ++ s_nl))) /\
  parse sample_unicode true a = Done (Ok (program_of first_part)) /\
  parse sample_unicode true b = Done (Ok (program_of second_part)) /\
  fresh_start (tokens_of_source b) /\ fresh_start (tokens_of_source w) /\ ~ ends_in_var (program_of first_part) /\
  List.length (program_of first_part) = 1 /\ List.length (program_of second_part) = 2 /\
  List.length (program_of (first_part ++ second_part)) = 3 /\
  (exists c, parse sample_unicode true w = Done (Err [c]) /\ loc_line (c_loc c) = 2%N) /\
  (exists c, parse sample_unicode true (a ++ w)%list = Done (Err [c]) /\ loc_line (c_loc c) = 5%N).
Proof.
  cbv zeta. parts.
  - apply elements_lex.
  - right. exists (removelast (elements (lns first_part ++ s_nl))). vm_compute. reflexivity.
  - apply elements_lex.
  - vm_compute. reflexivity.
  - vm_compute. reflexivity.
  - vm_compute. reflexivity.
  - apply fresh_by. vm_compute. reflexivity.
  - apply fresh_by. vm_compute. reflexivity.
  - intros (l & x & s & e & p & E). apply (f_equal (@rev _)) in E. rewrite rev_app_distr in E. vm_compute in E. discriminate.
  - vm_compute. reflexivity.
  - vm_compute. reflexivity.
  - vm_compute. reflexivity.
  - eexists. split; vm_compute; reflexivity.
  - eexists. split; vm_compute; reflexivity.
Qed.

(** The last hypotheses are needed.  Maps written without braces grow together. *)
Theorem C78_any_start_refuted : ~ forall U oc a es ta la b es', sane U -> valid_source a -> valid_source b ->
  lexes U a es -> whole_lines es -> lexes U b es' -> flush (source_lines es') ->
  scan_tokens U a = Done (Ok ta) -> parse U oc a = Done (Ok la) ->
  ~ ends_in_var la -> ends_line ta ->
  goes_on la (parse U oc b) (parse U oc (a ++ b)%list).
Proof. exact any_start_refuted. Qed.
Print Assumptions C78_any_start_refuted.
(** After a variable with a function as last argument of its initialiser, the next line is taken as argument. *)
Theorem C78_any_end_refuted : ~ forall U oc a es ta la b es', sane U -> valid_source a -> valid_source b ->
  lexes U a es -> whole_lines es -> lexes U b es' -> flush (source_lines es') ->
  scan_tokens U a = Done (Ok ta) -> parse U oc a = Done (Ok la) ->
  (forall tb, scan_tokens U b = Done (Ok tb) -> fresh_start tb) ->
  goes_on la (parse U oc b) (parse U oc (a ++ b)%list).
Proof. exact any_end_refuted. Qed.
Print Assumptions C78_any_end_refuted.
