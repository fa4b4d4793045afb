(** Properties of the command line and the REPL (src/main.rs), of rendered
    errors (src/error.rs), of the WebAssembly entry point (src/wasm.rs) and of
    the demo page (index.html): C49-C54 and C61.

    [resolves U oc gs l]: [parse] and then [resolve] succeed on [gs], with the
    tree [l].  [fails U oc gs cs]: one of them returns the causes [cs].
    [too_deep U oc gs]: [gs] parses, but a statement has more than 65534 scopes
    in one another.  [F] are the texts taken from outside (Show.v). *)
From Verif Require Import Base F64 Token Ast Scanner Parser Resolver Show Driver Segment TestsParser
  SpecLex SpecScan SpecResolve SpecShow SpecDriver ScanFinal ResolveFinal ResolveProps
  DriverFacts DriverText DriverProps.
Local Open Scope string_scope.

Definition source (l : list string) : list string := segment (lns l ++ s_nl).
Definition run_file (l : list string) : process :=
  main_file sample_unicode true sample_formats "a.ws" (Contents (source l)).
Ltac parts := repeat match goal with |- _ /\ _ => split end.
Ltac sample := parts; try (apply check_valid; vm_compute; reflexivity);
  try apply sample_sane; try apply sample_quotes; try apply sample_writes; try (vm_compute; reflexivity).

(** ** C49 *)
Theorem C49_file : forall U oc F name gs, sane U -> valid_source gs ->
  let p := main_file U oc F name (Contents gs) in
  (exists l, resolves U oc gs l /\ p = mkProcess (debug_program F l ++ s_nl) "" (Exited 0)) \/
  (exists cs, fails U oc gs cs /\ cs <> nil /\ p = mkProcess "" (cat (map error_line cs)) (Exited 65)) \/
  (exists w, too_deep U oc gs /\ p = mkProcess "" "" (Aborted w)) \/
  (scan_tokens U gs = Diverged /\ p = mkProcess "" "" Hung).
Proof. exact (fun U oc F name gs Sn => file_fate U oc F Sn name gs). Qed.
Print Assumptions C49_file.
Theorem C49_status_65 : forall U oc F name gs, sane U -> valid_source gs ->
  (p_end (main_file U oc F name (Contents gs)) = Exited 65 <-> exists cs, fails U oc gs cs).
Proof. exact (fun U oc F name gs Sn => status_65 U oc F Sn name gs). Qed.
Print Assumptions C49_status_65.
Theorem C49_status_0 : forall U oc F name gs, sane U -> valid_source gs ->
  (p_end (main_file U oc F name (Contents gs)) = Exited 0 <-> exists l, resolves U oc gs l).
Proof. exact (fun U oc F name gs Sn => status_0 U oc F Sn name gs). Qed.
Print Assumptions C49_status_0.
(** Something is printed on stdout exactly at status 0 and on stderr exactly at
    status 65. *)
Theorem C49_streams : forall U oc F name gs, sane U -> valid_source gs ->
  let p := main_file U oc F name (Contents gs) in
  (p_out p <> "" <-> p_end p = Exited 0) /\ (p_err p <> "" <-> p_end p = Exited 65).
Proof. exact (fun U oc F name gs Sn => streams U oc F Sn name gs). Qed.
Print Assumptions C49_streams.
Example C49_example :
  sane sample_unicode /\ valid_source (source ["var = 1"; "print 2"; "fun 3"]) /\
  run_file ["var = 1"; "print 2"; "fun 3"] =
    mkProcess "" ("[line 1:5] Error at '=': Expect variable name." ++ s_nl ++
                  "[line 3:5] Error at '3': Expect '(' after function name." ++ s_nl) (Exited 65) /\
  run_file ["return 1"] =
    mkProcess "" ("[line 1:1] Error at 'return': Cannot return from top-level code." ++ s_nl) (Exited 65) /\
  p_end (run_file ["print 1"]) = Exited 0 /\
  p_end (run_file ["if a"; "  b"; "      c"; "    d"]) = Hung.
Proof. sample. Qed.
Example C49_printed : p_out (run_file ["print -x"]) = lns
  ["["; "    Print("; "        Unary("; "            Minus,"; "            Variable(";
   "                ""x"",";
   "                Cell {"; "                    value: VarLoc {"; "                        distance: 0,";
   "                        index: 0,"; "                    },"; "                },";
   "                SourceLoc {"; "                    line: 1,"; "                    column: 8,";
   "                },"; "            ),"; "            SourceLoc {"; "                line: 1,";
   "                column: 7,"; "            },"; "        ),"; "    ),"; "]"] ++ s_nl.
Proof. vm_compute. reflexivity. Qed.

(** ** C61 *)
Theorem C61_output_determines_tree : forall U oc F name name' gs gs',
  sane U -> quotes (f_str F) -> writes_numbers (f_num F) -> valid_source gs -> valid_source gs' ->
  p_end (main_file U oc F name (Contents gs)) = Exited 0 ->
  p_out (main_file U oc F name (Contents gs)) = p_out (main_file U oc F name' (Contents gs')) ->
  exists l, resolves U oc gs l /\ resolves U oc gs' l.
Proof.
  exact (fun U oc F name name' gs gs' Sn Q N => output_determines U oc F Sn Q N name name' gs gs').
Qed.
Print Assumptions C61_output_determines_tree.
(** Two sources with one tree. *)
Example C61_example :
  sane sample_unicode /\ quotes (f_str sample_formats) /\ writes_numbers (f_num sample_formats) /\
  valid_source (source ["print 1.50"]) /\ valid_source (source ["print 1.5 "]) /\
  p_end (run_file ["print 1.50"]) = Exited 0 /\
  p_out (run_file ["print 1.50"]) = p_out (run_file ["print 1.5 "]).
Proof. sample. Qed.

(** ** C50 *)
(** A session ends only when a read fails (or a line makes the scanner hang or
    the resolver panic). *)
Theorem C50_session_ends : forall U oc F l p, sane U -> Forall valid_read l -> repl U oc F l = Finished p ->
  exists pre i post r, l = (pre ++ i :: post)%list /\ repl U oc F pre = Reading r /\
    ((exists e, i = Failure e /\
        p = mkProcess (r_out r ++ "Error reading stdin: " ++ e ++ s_nl) (r_err r) (Exited 0)) \/
     (exists gs ast w, i = Line gs /\ parse_repl_line U oc gs = Done (Ok ast) /\
        Exists (fun st => (65534 < nesting st)%N) ast /\
        p = mkProcess (r_out r) (r_err r) (Aborted w)) \/
     (exists gs, i = Line gs /\ scan_tokens U gs = Diverged /\ p = mkProcess (r_out r) (r_err r) Hung)).
Proof. exact (fun U oc F l p Sn => repl_ends U Sn oc F l p). Qed.
Print Assumptions C50_session_ends.
(** At the end of input [read_line] returns the empty string. *)
Theorem C50_end_of_input : forall U oc F l r n, repl U oc F l = Reading r ->
  repl U oc F (l ++ repeat (Line nil) n) =
  Reading (mkReading (r_out r ++ times n ("[]" ++ s_nl ++ "> ")) (r_err r) (r_resolver r)).
Proof. exact (fun U oc F l r n => repl_eof U oc F n l r). Qed.
Print Assumptions C50_end_of_input.
Theorem C50_exits_at_end_of_input_refuted :
  ~ (forall U oc F l, sane U -> Forall valid_read l ->
     exists n p, repl U oc F (l ++ repeat (Line nil) n) = Finished p).
Proof. exact eof_refuted. Qed.
Print Assumptions C50_exits_at_end_of_input_refuted.
Definition session (l : list string) : repl_state :=
  repl sample_unicode true sample_formats (map (fun x => Line (source [x])) l).
Example C50_example :
  match session ["var a = 1"; "a +"; "print b"] with
  | Reading (mkReading out err (mkR [g] NoFunction NoClass)) =>
    err = "[line 1:3] Error at '+': Expect expression." ++ s_nl /\ map fst g = ["a"; "b"] /\ slen out = 582
  | _ => False
  end /\
  match repl sample_unicode true sample_formats [Failure "e"; Line nil] with
  | Finished p => p = mkProcess ("> Error reading stdin: e" ++ s_nl) "" (Exited 0)
  | _ => False
  end.
Proof. vm_compute. auto. Qed.

(** ** C51 *)
(** Between lines the session is at global scope, outside functions and classes. *)
Theorem C51_global_scope : forall U oc F l r, repl U oc F l = Reading r ->
  exists g, r_resolver r = mkR [g] NoFunction NoClass.
Proof.
  exact (fun U oc F l r H =>
    match repl_history U oc F l r H with
    | ex_intro _ h (conj Hh _) =>
      match history_top h _ Hh with ex_intro _ g (conj E _) => ex_intro _ g E end
    end).
Qed.
Print Assumptions C51_global_scope.
(** What a line does. *)
Theorem C51_line : forall U oc F l r gs, sane U -> repl U oc F l = Reading r -> valid_source gs ->
  (exists ast ast' s', parse_repl_line U oc gs = Done (Ok ast) /\
     resolver_resolve ast (r_resolver r) = Done (Ok ast', s') /\
     repl U oc F (l ++ [Line gs]) =
       Reading (mkReading (r_out r ++ debug_program F ast' ++ s_nl ++ "> ") (r_err r) s')) \/
  (exists ast cs s', parse_repl_line U oc gs = Done (Ok ast) /\
     resolver_resolve ast (r_resolver r) = Done (Err cs, s') /\ cs <> nil /\
     repl U oc F (l ++ [Line gs]) =
       Reading (mkReading (r_out r ++ "> ") (r_err r ++ cat (map error_line cs)) s')) \/
  (exists cs, parse_repl_line U oc gs = Done (Err cs) /\ cs <> nil /\
     repl U oc F (l ++ [Line gs]) =
       Reading (mkReading (r_out r ++ "> ") (r_err r ++ cat (map error_line cs)) (r_resolver r))) \/
  (exists ast w, parse_repl_line U oc gs = Done (Ok ast) /\
     resolver_resolve ast (r_resolver r) = Panicked w /\
     Exists (fun st => (65534 < nesting st)%N) ast /\
     repl U oc F (l ++ [Line gs]) = Finished (mkProcess (r_out r) (r_err r) (Aborted w))) \/
  (scan_tokens U gs = Diverged /\ parse_repl_line U oc gs = Diverged /\
     repl U oc F (l ++ [Line gs]) = Finished (mkProcess (r_out r) (r_err r) Hung)).
Proof. exact (fun U oc F l r gs Sn => repl_line U Sn oc F l r gs). Qed.
Print Assumptions C51_line.
(** The session is a history of calls on one resolver (so C35-C48 hold for it):
    one call for every line that parses, none for the others. *)
Theorem C51_session_history : forall U oc F l r, repl U oc F l = Reading r ->
  exists h, history h (r_resolver r) /\ map fst h = flat_map (parsed_line U oc) l.
Proof.
  exact (fun U oc F l r H =>
    match repl_history U oc F l r H with
    | ex_intro _ h (conj A (conj B _)) => ex_intro _ h (conj A B)
    end).
Qed.
Print Assumptions C51_session_history.
(** A history is resolved like one program. *)
Theorem C51_history_is_one_program : forall h s s0, history h s -> resolver_new = Done s0 ->
  resolver_resolve (List.concat (map fst h)) s0 = Done (fold_left both (map snd h) (Ok nil), s).
Proof. exact (fun h s s0 H => history_one h s H s0). Qed.
Print Assumptions C51_history_is_one_program.
Example C51_example :
  match session ["fun f() { return"; "var c = d"; "var a = ("; "return"] with
  | Reading (mkReading out err (mkR [g] NoFunction NoClass)) => map fst g = ["c"; "d"]
  | _ => False
  end.
Proof. vm_compute. reflexivity. Qed.

(** ** C52 *)
(** On the command line position, token and message can be told apart if the
    message does not contain the delimiter... *)
Theorem C52_error_line : forall c c',
  ~ contains "': " (c_message c) -> ~ contains "': " (c_message c') ->
  error_line c = error_line c' -> c = c'.
Proof. exact error_line_inj. Qed.
Print Assumptions C52_error_line.
(** ... the position always... *)
Theorem C52_error_line_position : forall c c', error_line c = error_line c' ->
  c_loc c = c_loc c' /\ (c_token c = None <-> c_token c' = None).
Proof. exact error_line_place. Qed.
Print Assumptions C52_error_line_position.
(** ... but not the rest. *)
Theorem C52_error_line_faithful_refuted : ~ (forall c c', error_line c = error_line c' -> c = c').
Proof. exact error_line_refuted. Qed.
Print Assumptions C52_error_line_faithful_refuted.
(** In JavaScript all of it can. *)
Theorem C52_error_paragraph : forall F c c', quotes (f_str F) ->
  error_paragraph F c = error_paragraph F c' -> c = c'.
Proof. exact paragraph_inj. Qed.
Print Assumptions C52_error_paragraph.
(** The causes of an error are rendered in order, and can be told apart. *)
Theorem C52_error_is_its_causes : forall F cs, display_error F cs = cat (map (error_paragraph F) cs).
Proof. exact display_error_eq. Qed.
Print Assumptions C52_error_is_its_causes.
Theorem C52_error_text : forall F cs cs', quotes (f_str F) ->
  Forall (fun c => no_newline (c_message c) = true) cs ->
  Forall (fun c => no_newline (c_message c) = true) cs' ->
  display_error F cs = display_error F cs' -> cs = cs'.
Proof.
  exact (fun F cs cs' Q N N' E => paragraphs_inj F cs cs' Q N N'
    (eq_trans (eq_sym (display_error_eq F cs)) (eq_trans E (display_error_eq F cs')))).
Qed.
Print Assumptions C52_error_text.
Example C52_example :
  match parse_src (lns ["var = 1"; "print 2"; "fun 3"]) with
  | Done (Err cs) =>
    List.length cs = 2 /\ forallb (fun c => no_newline (c_message c)) cs = true /\
    display_error sample_formats cs =
      "1:5 at ""="": Expect variable name." ++ s_nl ++ s_nl ++
      "3:5 at ""3"": Expect '(' after function name." ++ s_nl ++ s_nl
  | _ => False
  end.
Proof. vm_compute. auto. Qed.

(** ** C53 *)
Theorem C53_parse_string : forall U oc F gs, sane U -> valid_source gs ->
  (exists l, resolves U oc gs l /\ parse_string U oc F gs = Done (Ok (JArray (map jstmt l)))) \/
  (exists cs, fails U oc gs cs /\ cs <> nil /\
     parse_string U oc F gs = Done (Err (cat (map (error_paragraph F) cs)))) \/
  (exists w, too_deep U oc gs /\ parse_string U oc F gs = Panicked w) \/
  (scan_tokens U gs = Diverged /\ parse_string U oc F gs = Diverged).
Proof. exact (fun U oc F gs Sn => wasm_fate U oc F Sn gs). Qed.
Print Assumptions C53_parse_string.
Theorem C53_value_determines_tree : forall U oc F gs gs' v, sane U -> valid_source gs -> valid_source gs' ->
  parse_string U oc F gs = Done (Ok v) -> parse_string U oc F gs' = Done (Ok v) ->
  exists l, resolves U oc gs l /\ resolves U oc gs' l.
Proof. exact (fun U oc F gs gs' v Sn => wasm_value U oc F Sn gs gs' v). Qed.
Print Assumptions C53_value_determines_tree.
Theorem C53_serialization_injective : forall l l',
  JArray (map jstmt l) = JArray (map jstmt l') -> l = l'.
Proof. exact ShowJs.jstmts_inj. Qed.
Print Assumptions C53_serialization_injective.
Example C53_example :
  parse_string sample_unicode true sample_formats (source ["return"]) =
    Done (Err ("1:1 at ""return"": Cannot return from top-level code." ++ s_nl ++ s_nl)) /\
  parse_string sample_unicode true sample_formats (source ["print {a: nil}"]) =
    Done (Ok (JArray [tagged "Print" (tagged "LiteralMap" (JMap [("a", JObject [("type", JString "LiteralNil")])]))])).
Proof. sample. Qed.

(** ** C54 *)
Theorem C54_page_up_to_booleans : forall U oc F gs gs' l l',
  sane U -> writes_numbers (f_js F) -> valid_source gs -> valid_source gs' ->
  resolves U oc gs l -> resolves U oc gs' l' ->
  (on_change U oc F gs = on_change U oc F gs' <-> map blur l = map blur l').
Proof. exact (fun U oc F gs gs' l l' Sn N => page_ok U oc F Sn N gs gs' l l'). Qed.
Print Assumptions C54_page_up_to_booleans.
(** Trees and errors are never confused: a tree starts with a newline. *)
Theorem C54_page_shows_errors : forall U oc F gs t, sane U -> valid_source gs ->
  on_change U oc F gs = Done t ->
  ((exists r, t = String (ascii_of_nat 10) r) <-> exists l, resolves U oc gs l).
Proof. exact (fun U oc F gs t Sn => page_error U oc F Sn gs t). Qed.
Print Assumptions C54_page_shows_errors.
Definition shown (l : list string) : outcome string :=
  on_change sample_unicode true sample_formats (source l).
Theorem C54_page_faithful_refuted :
  ~ (forall U oc F gs gs' l l', sane U -> writes_numbers (f_js F) -> valid_source gs -> valid_source gs' ->
     resolves U oc gs l -> resolves U oc gs' l' -> on_change U oc F gs = on_change U oc F gs' -> l = l').
Proof. exact page_refuted. Qed.
Print Assumptions C54_page_faithful_refuted.
Example C54_example :
  shown ["print true"] = shown ["print false"] /\
  shown ["print true"] = Done (s_nl ++ lns ["["; "  "; "  {"; "    type: ""Print"","; "    args: "; "    {"; "      type: ""LiteralBool"","; "      args: ";
   "      {"; "      },"; "    },"; "  },"; "]"]).
Proof. split; vm_compute; reflexivity. Qed.
