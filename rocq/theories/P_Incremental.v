(** Properties of the scanner on texts that get longer, and of everything under other Unicode tables
    (src/scanner.rs, src/parser.rs, src/main.rs, src/wasm.rs): C90 and C91.

    [strings_closed], [extends], [same_class]: SpecIncremental.v. *)
From Verif Require Import Base F64 Token Ast Scanner Parser Show Driver Segment SpecLex SpecScan SpecLayout SpecIncremental
  ScanFinal ParseProps DriverText Incremental TestsParser P_Parser P_Driver.
Local Open Scope string_scope.

(** ** C90 *)
Theorem C90_lines : forall U c d es, sane U -> valid_source ((c ++ [s_nl]) ++ d)%list ->
  lexes U (c ++ [s_nl])%list es -> strings_closed es ->
  extends (scan_tokens U (c ++ [s_nl])%list) (scan_tokens U ((c ++ [s_nl]) ++ d)%list).
Proof. exact (fun U c d es Sn V L S => scan_lines U Sn c d es V L S). Qed.
Print Assumptions C90_lines.
(** Accepted lines, rejected lines, lines on which the scanner hangs. *)
Definition open_block : string := lns ["if a"; "  b"].
Definition closed_block : string := lns ["  c"; "d"] ++ s_nl.
Example C90_example :
  lexes sample_unicode (segment (open_block ++ s_nl)) (elements (open_block ++ s_nl)) /\
  strings_closed (elements (open_block ++ s_nl)) /\
  valid_source (segment (open_block ++ s_nl ++ closed_block)) /\
  segment (open_block ++ s_nl ++ closed_block) = ((segment open_block ++ [s_nl]) ++ segment closed_block)%list /\
  map t_type (tokens_of_source (segment (open_block ++ s_nl))) =
    [If; Identifier; Terminator; Indent; Identifier; Terminator; Outdent; Eof] /\
  map t_type (tokens_of_source (segment (open_block ++ s_nl ++ closed_block))) =
    [If; Identifier; Terminator; Indent; Identifier; Terminator; Identifier; Terminator; Outdent; Identifier; Terminator; Eof] /\
  (exists x y, scan_text ("a # b" ++ s_nl) = Done (Err [x]) /\ scan_text ("a # b" ++ s_nl ++ "# c") = Done (Err [x; y])) /\
  scan_text (lns ["if a"; "  b"; "      c"; "    d"] ++ s_nl) = Diverged.
Proof.
  parts; try (vm_compute; reflexivity).
  - apply elements_lex.
  - intros t I. vm_compute in I. intuition discriminate.
  - apply check_valid. vm_compute. reflexivity.
  - eexists. eexists. split; vm_compute; reflexivity.
Qed.
(** A string that is left open is not an error in the longer text. *)
Theorem C90_open_string_refuted : exists c d cs toks,
  scan_tokens sample_unicode (c ++ [s_nl])%list = Done (Err cs) /\
  scan_tokens sample_unicode ((c ++ [s_nl]) ++ d)%list = Done (Ok toks).
Proof.
  exists (segment ("a " ++ s_quote)), (segment s_quote). eexists. eexists. split; vm_compute; reflexivity.
Qed.
Print Assumptions C90_open_string_refuted.

(** ** C91 *)
Theorem C91_scan : forall U U' gs, sane U -> sane U' -> valid_source gs -> Forall (same_class U U') gs ->
  scan_tokens U gs = scan_tokens U' gs.
Proof. exact scan_same. Qed.
Print Assumptions C91_scan.
Theorem C91_parse : forall U U' oc gs, sane U -> sane U' -> valid_source gs -> Forall (same_class U U') gs ->
  parse U oc gs = parse U' oc gs /\ parse_repl_line U oc gs = parse_repl_line U' oc gs /\
  parse_expression U oc gs = parse_expression U' oc gs.
Proof. exact (fun U U' oc gs Sn Sn' => parsers_same U U' Sn Sn' oc gs). Qed.
Print Assumptions C91_parse.
Theorem C91_run : forall U U' oc F name gs, sane U -> sane U' -> valid_source gs -> Forall (same_class U U') gs ->
  main_file U oc F name (Contents gs) = main_file U' oc F name (Contents gs) /\
  parse_string U oc F gs = parse_string U' oc F gs /\ on_change U oc F gs = on_change U' oc F gs.
Proof. exact (fun U U' oc F name gs Sn Sn' => drivers_same U U' Sn Sn' oc F name gs). Qed.
Print Assumptions C91_run.
Theorem C91_session : forall U U' oc F l, sane U -> sane U' ->
  Forall (fun i => match i with Line gs => valid_source gs /\ Forall (same_class U U') gs | Failure _ => True end) l ->
  repl U oc F l = repl U' oc F l.
Proof. exact (fun U U' oc F l Sn Sn' => repl_same U U' Sn Sn' oc F l). Qed.
Print Assumptions C91_session.
(** A table that knows no letters but those of ASCII: a text with a Greek letter in it is read differently. *)
Definition ascii_table : unicode :=
  mkUnicode (fun c => u_alphabetic sample_unicode c && (c <? 128)%N) (fun c => u_alphanumeric sample_unicode c && (c <? 128)%N).
Definition alpha : string := String (ascii_of_nat 206) (String (ascii_of_nat 177) "").
Example C91_example :
  sane sample_unicode /\ sane ascii_table /\ valid_source (source ["print ab + c1"]) /\
  Forall (same_class sample_unicode ascii_table) (source ["print ab + c1"]) /\
  ~ same_class sample_unicode ascii_table alpha /\
  (exists t, scan_tokens sample_unicode (source ["print " ++ alpha]) = Done (Ok t)) /\
  (exists c, scan_tokens ascii_table (source ["print " ++ alpha]) = Done (Err [c])).
Proof.
  parts; try (vm_compute; reflexivity).
  - apply check_valid. vm_compute. reflexivity.
  - apply Forall_forall. intros g I. vm_compute in I.
    repeat (destruct I as [<-|I]; [intros c E; vm_compute in E; injection E as <-; vm_compute; auto|]). destruct I.
  - intros H. destruct (H 945%N) as [E _]; [vm_compute; reflexivity|]. vm_compute in E. discriminate.
  - eexists. vm_compute. reflexivity.
  - eexists. vm_compute. reflexivity.
Qed.
