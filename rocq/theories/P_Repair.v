(** Which errors lines added at the end of a text can repair (src/scanner.rs, src/parser.rs): C95. *)
From Verif Require Import Base F64 Token Ast Scanner Parser Segment SpecLex SpecScan ScanFinal
  RepairScan TestsParser P_Parser P_Driver.
Local Open Scope string_scope.

(** ** C95 *)
Theorem C95_errors_stay : forall U oc c d toks toks' cs e, sane U -> valid_source ((c ++ [s_nl]) ++ d)%list ->
  scan_tokens U (c ++ [s_nl])%list = Done (Ok toks) -> scan_tokens U ((c ++ [s_nl]) ++ d)%list = Done (Ok toks') ->
  parse U oc (c ++ [s_nl])%list = Done (Err (cs ++ [e])%list) -> cs <> nil ->
  exists more, parse U oc ((c ++ [s_nl]) ++ d)%list = Done (Err (cs ++ more)%list).
Proof. exact (fun U oc c d t1 t2 cs e Sn V A B P C => errors_stay U Sn oc c d t1 t2 cs e V A B P C). Qed.
Print Assumptions C95_errors_stay.
Theorem C95_repl_errors_stay : forall U oc c d toks toks' cs e, sane U -> valid_source ((c ++ [s_nl]) ++ d)%list ->
  scan_tokens U (c ++ [s_nl])%list = Done (Ok toks) -> scan_tokens U ((c ++ [s_nl]) ++ d)%list = Done (Ok toks') ->
  parse_repl_line U oc (c ++ [s_nl])%list = Done (Err (cs ++ [e])%list) -> cs <> nil ->
  exists more, parse_repl_line U oc ((c ++ [s_nl]) ++ d)%list = Done (Err (cs ++ more)%list).
Proof. exact (fun U oc c d t1 t2 cs e Sn V A B P C => repl_errors_stay U Sn oc c d t1 t2 cs e V A B P C). Qed.
Print Assumptions C95_repl_errors_stay.
Theorem C95_scan_errors_stay : forall U c d cs e r, sane U -> valid_source ((c ++ [s_nl]) ++ d)%list ->
  scan_tokens U (c ++ [s_nl])%list = Done (Err (cs ++ [e])%list) ->
  scan_tokens U ((c ++ [s_nl]) ++ d)%list = Done r -> cs <> nil ->
  exists more, r = Err (cs ++ more)%list.
Proof. exact (fun U c d cs e r Sn V A B C => scan_errors_stay U Sn c d cs e r V A B C). Qed.
Print Assumptions C95_scan_errors_stay.
Theorem C95_never_repaired : forall U oc c d a b cs, sane U -> valid_source ((c ++ [s_nl]) ++ d)%list ->
  parse U oc (c ++ [s_nl])%list = Done (Err (a :: b :: cs)) ->
  forall l, parse U oc ((c ++ [s_nl]) ++ d)%list <> Done (Ok l).
Proof. exact (fun U oc c d a b cs Sn V P => never_repaired U Sn oc c d a b cs V P). Qed.
Print Assumptions C95_never_repaired.
(** Two errors; the lines added repair the second one ([if (a)] wants a body) and make a third. *)
Definition broken_lines : list string := ["var = 1"; "print a"; "if (a)"].
Definition repairing_lines : list string := ["  print 1"; "print )"].
Definition errors_in (r : outcome (result (list stmt) parse_error)) : list (N * string) :=
  match r with Done (Err cs) => map (fun c => (loc_line (c_loc c), c_message c)) cs | _ => nil end.
Example C95_example :
  valid_source (source broken_lines ++ source repairing_lines)%list /\
  (exists t, scan_tokens sample_unicode (source broken_lines) = Done (Ok t)) /\
  (exists t, scan_tokens sample_unicode (source broken_lines ++ source repairing_lines)%list = Done (Ok t)) /\
  errors_in (parse sample_unicode true (source broken_lines)) =
    [(1%N, "Expect variable name."); (4%N, "Expect indent to begin block")] /\
  errors_in (parse_repl_line sample_unicode true (source broken_lines)) =
    [(1%N, "Expect variable name."); (4%N, "Expect indent to begin block")] /\
  errors_in (parse sample_unicode true (source broken_lines ++ source repairing_lines)%list) =
    [(1%N, "Expect variable name."); (5%N, "Expect expression.")].
Proof.
  split; [apply check_valid; vm_compute; reflexivity|]. split; [eexists; vm_compute; reflexivity|].
  split; [eexists; vm_compute; reflexivity|]. split; [|split]; vm_compute; reflexivity.
Qed.
(** Errors of scanning: the tab stays, the open string is closed by the next line. *)
Example C95_scan_example :
  let c := segment ("a" ++ String (Ascii.ascii_of_nat 9) ("b " ++ s_quote)) in
  let d := segment (s_quote ++ s_nl) in
  let messages r := match r with Done (Err cs) => map c_message cs | _ => nil end in
  valid_source ((c ++ [s_nl]) ++ d)%list /\
  messages (scan_tokens sample_unicode (c ++ [s_nl])%list) =
    ["Illegal tab character; all whitespace must be spaces"; "Unterminated string."] /\
  messages (scan_tokens sample_unicode ((c ++ [s_nl]) ++ d)%list) =
    ["Illegal tab character; all whitespace must be spaces"].
Proof. cbv zeta. split; [apply check_valid; vm_compute; reflexivity|]. split; vm_compute; reflexivity. Qed.
(** That the last error stays too is false, of either kind. *)
Theorem C95_last_error_refuted :
  (exists c d e l, valid_source ((c ++ [s_nl]) ++ d)%list /\
    parse sample_unicode true (c ++ [s_nl])%list = Done (Err [e]) /\
    parse sample_unicode true ((c ++ [s_nl]) ++ d)%list = Done (Ok l) /\
    exists t, scan_tokens sample_unicode (c ++ [s_nl])%list = Done (Ok t)) /\
  (exists c d e l, valid_source ((c ++ [s_nl]) ++ d)%list /\
    scan_tokens sample_unicode (c ++ [s_nl])%list = Done (Err [e]) /\
    parse sample_unicode true ((c ++ [s_nl]) ++ d)%list = Done (Ok l)).
Proof.
  split.
  - exists (segment "if (a)"), (segment ("  b" ++ s_nl)). eexists. eexists. split; [apply check_valid; vm_compute; reflexivity|].
    split; [vm_compute; reflexivity|]. split; [vm_compute; reflexivity|]. eexists. vm_compute. reflexivity.
  - exists (segment ("a " ++ s_quote)), (segment (s_quote ++ s_nl)). eexists. eexists.
    split; [apply check_valid; vm_compute; reflexivity|]. split; vm_compute; reflexivity.
Qed.
Print Assumptions C95_last_error_refuted.
