(** Properties of the parser's errors (src/parser.rs), C62-C64.

    [gs] is the source as the list of its grapheme clusters, [U] the Unicode
    classification, [oc] tells whether overflow checks are on (debug builds).
    [program_errors] and [expression_error] are the table of messages of
    SpecReject.v followed along the grammar of SpecGrammar.v. *)
From Verif Require Import Base F64 Token Ast Scanner Parser Segment
  SpecLex SpecScan SpecGrammar SpecParse SpecReject ScanFinal ParseLine RejectFinal.
From Verif Require Import TestsParser.

(** Line, column, token and message of each error. *)
Definition told (r : outcome (result (list stmt) parse_error)) :=
  match r with
  | Done (Err cs) => map (fun c => (c_loc c, c_token c, c_message c)) cs
  | _ => nil
  end.
Definition tokens_of_source (gs : list string) : list token :=
  match scan_tokens sample_unicode gs with Done (Ok t) => t | _ => nil end.
Ltac sample := repeat match goal with |- _ /\ _ => split end;
  try (apply check_valid; vm_compute; reflexivity);
  try apply sample_sane; try (vm_compute; reflexivity).

(** ** C62 *)
Theorem C62_parse_errors : forall U oc gs toks cs, sane U -> valid_source gs ->
  scan_tokens U gs = Done (Ok toks) -> cs <> nil ->
  (parse U oc gs = Done (Err cs) <-> program_errors false toks cs).
Proof. exact (fun U oc gs toks cs Sn V T => parse_source_errors U Sn gs V toks T oc cs). Qed.
Print Assumptions C62_parse_errors.
Theorem C62_parse_repl_line_errors : forall U oc gs toks cs, sane U -> valid_source gs ->
  scan_tokens U gs = Done (Ok toks) -> cs <> nil ->
  (parse_repl_line U oc gs = Done (Err cs) <-> program_errors true toks cs).
Proof. exact (fun U oc gs toks cs Sn V T => parse_repl_line_errors U Sn gs V toks T oc cs). Qed.
Print Assumptions C62_parse_repl_line_errors.
Theorem C62_parse_expression_errors : forall U oc gs toks cs, sane U -> valid_source gs ->
  scan_tokens U gs = Done (Ok toks) -> length toks <> 1 ->
  (parse_expression U oc gs = Done (Err cs) <-> exists c, cs = [c] /\ expression_error false toks c).
Proof. exact (fun U oc gs toks cs Sn V T => parse_expression_source_errors U Sn gs V toks T oc cs). Qed.
Print Assumptions C62_parse_expression_errors.
(** The table gives one list of errors for every token list. *)
Theorem C62_table_deterministic : forall trailing toks cs cs', tokens_ok toks ->
  program_errors trailing toks cs -> program_errors trailing toks cs' -> cs = cs'.
Proof. exact program_errors_unique. Qed.
Print Assumptions C62_table_deterministic.

Definition wrong_program : list string :=
  source ["print (1 + 2"; "for x in y"; "x = {a: 1, a: 2}"; "return b"; "1 = 2"].
Example C62_example :
  sane sample_unicode /\ valid_source wrong_program /\
  scan_tokens sample_unicode wrong_program = Done (Ok (tokens_of_source wrong_program)) /\
  told (parse sample_unicode true wrong_program) =
    [(mkLoc 1 13, Some s_nl, "Missing close parenthesis.");
     (mkLoc 3 12, Some "a", "Duplicate key in literal map.");
     (mkLoc 5 3, Some "=", "Invalid assignment target.")].
Proof. sample. Qed.
(** A loop whose indented body is missing leaves the parser inside the loop. *)
Example C62_loop_leaks :
  told (parse sample_unicode true (source ["while (a)"; "print a"; "break"])) =
    [(mkLoc 2 1, Some "print", "Expect indent to begin block")] /\
  told (parse sample_unicode true (source ["print )"; "if (a) b"; "break"])) =
    [(mkLoc 1 7, Some ")", "Expect expression.");
     (mkLoc 3 1, Some "break", "Found break statement outside of loop body")].
Proof. sample. Qed.
Example C62_example_expression :
  match parse_expression sample_unicode true (source ["f(1, 2"]) with
  | Done (Err [c]) => c_message c = "Expect ')' after arguments."
  | _ => False
  end.
Proof. vm_compute. reflexivity. Qed.

(** ** C63 *)
(** Both builds give the same trees and errors. *)
Theorem C63_same_results : forall U gs, sane U -> valid_source gs ->
  parse U true gs = parse U false gs /\ parse_repl_line U true gs = parse_repl_line U false gs /\
  ((forall eof, scan_tokens U gs <> Done (Ok [eof])) ->
   parse_expression U true gs = parse_expression U false gs).
Proof. exact same_results. Qed.
Print Assumptions C63_same_results.
Example C63_example : sane sample_unicode /\ valid_source wrong_program /\
  told (parse sample_unicode false wrong_program) = told (parse sample_unicode true wrong_program) /\
  length (told (parse sample_unicode false wrong_program)) = 3 /\
  length (tokens_of_source wrong_program) = 31.
Proof. sample. Qed.

(** ** C64 *)
Theorem C64_first_error : forall U oc gs toks c cs, sane U -> valid_source gs ->
  scan_tokens U gs = Done (Ok toks) -> parse U oc gs = Done (Err (c :: cs)) ->
  exists t i f r, before_end toks = Some t /\ declarations false false toks i /\
    rejects false t false (steps_of false t false Declaration) i f /\ c = f_cause f /\
    resumes_at (f_left f) r /\ reports false t (f_loop f) r cs.
Proof. exact parse_first_error. Qed.
Print Assumptions C64_first_error.
(** Recovery stops after a keyword, not before it: correct lines after wrong
    ones can be reported.  (Neither part indents, or leaves anything open but
    the parenthesis.) *)
Theorem C64_errors_independent_refuted :
  ~ (forall U oc wrong right cs l, sane U -> valid_source (source wrong) -> valid_source (source right) ->
     parse U oc (source wrong) = Done (Err cs) -> parse U oc (source right) = Done (Ok l) ->
     parse U oc (source (wrong ++ right)) = Done (Err cs)).
Proof. exact recovery_refuted. Qed.
Print Assumptions C64_errors_independent_refuted.
Example C64_example :
  told (parse sample_unicode true (source ["print (1"])) =
    [(mkLoc 1 9, Some s_nl, "Missing close parenthesis.")] /\
  told (parse sample_unicode true (source ["print (1"; "for (;;) a"])) =
    [(mkLoc 1 9, Some s_nl, "Missing close parenthesis.");
     (mkLoc 2 6, Some ";", "Expect expression.")].
Proof. sample. Qed.
