(** Properties of the messages of errors (src/scanner.rs, src/parser.rs,
    src/resolver.rs) and of their text on the command line and in JavaScript
    (src/main.rs, src/error.rs, src/wasm.rs): C72 and C73.

    [scan_cause], [parse_cause] and [resolve_cause] list the messages
    (SpecMessages.v); [breaks_lines gs] says that a newline is in no cluster but
    LF and CR LF. *)
From Verif Require Import Base F64 Token Ast Scanner Parser Resolver Show Driver Segment TestsParser
  SpecLex SpecReject SpecResolve SpecShow SpecDriver SpecMessages ScanFinal RejectFinal ResolveFinal ResolveProps DriverFacts DriverProps Messages P_Driver.
Local Open Scope string_scope.

(** ** C72 *)
Theorem C72_scan_messages : forall U gs cs, sane U -> valid_source gs ->
  scan_tokens U gs = Done (Err cs) -> Forall (scan_cause gs) cs.
Proof. exact (fun U gs cs Sn => scan_causes U Sn gs cs). Qed.
Print Assumptions C72_scan_messages.
Theorem C72_parse_messages : forall U oc gs toks cs, sane U -> valid_source gs ->
  scan_tokens U gs = Done (Ok toks) ->
  parse U oc gs = Done (Err cs) \/ parse_repl_line U oc gs = Done (Err cs) \/
  (parse_expression U oc gs = Done (Err cs) /\ length toks <> 1) -> Forall parse_cause cs.
Proof. exact (fun U oc gs toks cs Sn => parse_speaks U Sn oc gs toks cs). Qed.
Print Assumptions C72_parse_messages.
Theorem C72_resolve_messages : forall l cs, resolve l = Done (Err cs) -> Forall resolve_cause cs.
Proof. exact resolve_speaks. Qed.
Print Assumptions C72_resolve_messages.
Theorem C72_session_messages : forall h s p cs, history h s -> In (p, Err cs) h -> Forall resolve_cause cs.
Proof. exact session_speaks. Qed.
Print Assumptions C72_session_messages.

Definition errors_in (l : list string) : list string :=
  match parse sample_unicode true (source l) with Done (Err cs) => map c_message cs | _ => nil end.
Example C72_example :
  sane sample_unicode /\ valid_source (source ["print ~"]) /\
  errors_in ["print ~"; s_tab] =
    ["Unexpected token: ~"; "Illegal tab character; all whitespace must be spaces"] /\
  errors_in ["print (1"; "for (;;) a"] = ["Missing close parenthesis."; "Expect expression."] /\
  errors_in ["{ print 1"] = ["Expect '}' after block."].
Proof. sample. Qed.

(** ** C73 *)
(** The text thrown by the WebAssembly entry point determines the errors... *)
Theorem C73_thrown_text : forall U oc F gs gs' t, sane U -> quotes (f_str F) ->
  valid_source gs -> valid_source gs' -> breaks_lines gs -> breaks_lines gs' ->
  parse_string U oc F gs = Done (Err t) -> parse_string U oc F gs' = Done (Err t) ->
  exists cs, fails U oc gs cs /\ fails U oc gs' cs.
Proof. exact (fun U oc F gs gs' t Sn => thrown_determines U Sn oc F gs gs' t). Qed.
Print Assumptions C73_thrown_text.
(** ... and so does what the page shows. *)
Theorem C73_page_text : forall U oc F gs gs' cs, sane U -> quotes (f_str F) ->
  valid_source gs -> valid_source gs' -> breaks_lines gs -> breaks_lines gs' ->
  fails U oc gs cs -> on_change U oc F gs = on_change U oc F gs' -> fails U oc gs' cs.
Proof. exact (fun U oc F gs gs' cs Sn => page_determines U Sn oc F gs gs' cs). Qed.
Print Assumptions C73_page_text.
(** On the command line one error can be told from another... *)
Theorem C73_one_error : forall U oc F name name' gs gs' c c', sane U -> valid_source gs -> valid_source gs' ->
  fails U oc gs [c] -> fails U oc gs' [c'] ->
  p_err (main_file U oc F name (Contents gs)) = p_err (main_file U oc F name' (Contents gs')) -> c = c'.
Proof. exact (fun U oc F name name' gs gs' c c' Sn => one_error_determines U Sn oc F name name' gs gs' c c'). Qed.
Print Assumptions C73_one_error.
(** ... but not one error from two. *)
Theorem C73_standard_error_refuted :
  ~ (forall U oc F name gs gs' cs cs', sane U -> quotes (f_str F) ->
     valid_source gs -> valid_source gs' -> breaks_lines gs -> breaks_lines gs' ->
     fails U oc gs cs -> fails U oc gs' cs' ->
     p_err (main_file U oc F name (Contents gs)) = p_err (main_file U oc F name (Contents gs')) ->
     length cs = length cs').
Proof. exact standard_error_refuted. Qed.
Print Assumptions C73_standard_error_refuted.
Example C73_example :
  quotes (f_str sample_formats) /\ breaks_lines (source ["print ~"]) /\
  p_err (run_file one_error) =
    "[line 4:3] Error at 'a': Duplicate key in literal map." ++ s_nl ++
    "[line 6:2] Error at 'b': Duplicate key in literal map." ++ s_nl /\
  p_err (run_file two_errors) = p_err (run_file one_error).
Proof. parts; [apply sample_quotes|apply check_breaks; vm_compute; reflexivity| |]; vm_compute; reflexivity. Qed.
