(** Properties of the command line and the REPL when writing fails (src/main.rs): C88.

    [file_on U oc F (mkConsole "" "" ro re) name f] is the process started with
    the file [name] when stdout takes [ro] bytes and stderr [re]; [session_on]
    is the REPL.  [main_file] and [repl] are the same with streams that take
    everything (C49-C51, C67, C68). *)
From Verif Require Import Base F64 Token Ast Scanner Parser Resolver Show Driver Segment SpecLex SpecScan SpecDriver ScanFinal
  DriverFacts DriverText DriverProps SpecConsole Console ConsoleProps TestsParser P_Driver.
Local Open Scope string_scope.

(** ** C88 *)
Theorem C88_status_0 : forall U oc F ro re name gs, sane U -> valid_source gs ->
  (p_end (file_on U oc F (mkConsole "" "" ro re) name (Contents gs)) = Exited 0 <->
   exists l, resolves U oc gs l /\ fits ro (debug_program F l ++ s_nl)).
Proof. exact status_0_on. Qed.
Print Assumptions C88_status_0.
Theorem C88_status_65 : forall U oc F ro re name gs, sane U -> valid_source gs ->
  (p_end (file_on U oc F (mkConsole "" "" ro re) name (Contents gs)) = Exited 65 <->
   exists cs, fails U oc gs cs /\ fits re (cat (map error_line cs))).
Proof. exact status_65_on. Qed.
Print Assumptions C88_status_65.
(** A process that exits has written everything. *)
Theorem C88_exits : forall U oc F ro re name f n,
  p_end (file_on U oc F (mkConsole "" "" ro re) name f) = Exited n ->
  file_on U oc F (mkConsole "" "" ro re) name f = main_file U oc F name f.
Proof. exact exits. Qed.
Print Assumptions C88_exits.
(** Only the failing write matters. *)
Theorem C88_file : forall U oc F ro re name f,
  fits ro (p_out (main_file U oc F name f)) -> fits re (p_err (main_file U oc F name f)) ->
  file_on U oc F (mkConsole "" "" ro re) name f = main_file U oc F name f.
Proof. exact file_fits. Qed.
Print Assumptions C88_file.
(** The process that could not write panics, with as much written as the stream takes. *)
Theorem C88_file_fails : forall U oc F ro re name f,
  ~ (fits ro (p_out (main_file U oc F name f)) /\ fits re (p_err (main_file U oc F name f))) ->
  let p := file_on U oc F (mkConsole "" "" ro re) name f in
  begins (p_out p) (p_out (main_file U oc F name f)) /\ begins (p_err p) (p_err (main_file U oc F name f)) /\
  (full ro (p_out p) \/ full re (p_err p)) /\ exists w, p_end p = Aborted w.
Proof. exact file_stops. Qed.
Print Assumptions C88_file_fails.
Theorem C88_session : forall U oc F ro re l,
  fits ro (state_out (repl U oc F l)) -> fits re (state_err (repl U oc F l)) ->
  match repl U oc F l with
  | Finished p => session_on U oc F (mkConsole "" "" ro re) l = Over p
  | Reading r => exists ro' re',
      session_on U oc F (mkConsole "" "" ro re) l = Waiting (mkConsole (r_out r) (r_err r) ro' re') (r_resolver r)
  end.
Proof. exact session_fits. Qed.
Print Assumptions C88_session.
Theorem C88_session_fails : forall U oc F ro re l,
  ~ (fits ro (state_out (repl U oc F l)) /\ fits re (state_err (repl U oc F l))) ->
  exists p, session_on U oc F (mkConsole "" "" ro re) l = Over p /\
  begins (p_out p) (state_out (repl U oc F l)) /\ begins (p_err p) (state_err (repl U oc F l)) /\
  (full ro (p_out p) \/ full re (p_err p)) /\ exists w, p_end p = Aborted w.
Proof. exact session_stops. Qed.
Print Assumptions C88_session_fails.
(** At the end of input the REPL goes on for ever (C50), unless stdout fails. *)
Theorem C88_end_of_input : forall U oc F n re l,
  exists k p, session_on U oc F (mkConsole "" "" (Some n) re) (l ++ repeat (Line nil) k) = Over p.
Proof. exact eof_ends. Qed.
Print Assumptions C88_end_of_input.
(** An empty file name is no file name. *)
Theorem C88_main : forall U oc F c name f l,
  (name = "" -> main U oc F c name f l = session_on U oc F c l) /\
  (name <> "" -> main U oc F c name f l = Over (file_on U oc F c name f)).
Proof. exact main_choice. Qed.
Print Assumptions C88_main.
(** A pipe that takes 10 bytes; two error lines of which the second does not fit; a session that ends in the
    middle of the second answer. *)
Definition run_file_on (ro re : option nat) (l : list string) : process :=
  file_on sample_unicode true sample_formats (mkConsole "" "" ro re) "a.ws" (Contents (source l)).
Example C88_example :
  sane sample_unicode /\ valid_source (source ["print 1"]) /\
  run_file_on (Some 10) None ["print 1"] =
    mkProcess ("[" ++ s_nl ++ "    Prin") "" (Aborted "failed printing to stdout") /\
  run_file_on None (Some 50) ["var = 1"; "print 2"; "fun 3"] =
    mkProcess "" ("[line 1:5] Error at '=': Expect variable name." ++ s_nl ++ "[li")
      (Aborted "failed printing to stderr") /\
  p_end (run_file_on (Some 0) (Some 200) ["var = 1"; "print 2"; "fun 3"]) = Exited 65 /\
  session_on sample_unicode true sample_formats (mkConsole "" "" (Some 8) None) (map Line [nil; nil; nil]) =
    Over (mkProcess ("> []" ++ s_nl ++ "> [") "" (Aborted "failed printing to stdout")).
Proof. sample. Qed.
