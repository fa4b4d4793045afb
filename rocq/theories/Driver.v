(** src/main.rs, src/error.rs (Display), src/wasm.rs and [onChange] of
    index.html: the command line, the REPL, the WebAssembly entry point.

    What the program writes is a string for each of stdout and stderr.
    Failing writes to them are in Console.v.  The message that the Rust
    runtime writes when a panic ends the process is not modelled. *)
From Verif Require Import Base F64 Token Ast Scanner Parser Resolver Show.
Local Open Scope string_scope.

Section Drive.
Variable U : unicode.
Variable overflow_checks : bool.
Variable F : formats.

(** ** src/main.rs *)

(** src/main.rs:88-102 [run]; the resolver is updated. *)
Definition run (resolver : rstate) (source : list string) (for_repl : bool)
  : outcome (result (list stmt) parse_error * rstate) :=
  olet r <- (if for_repl then parse_repl_line U overflow_checks source
             else parse U overflow_checks source) ;;
  match r with
  | Err e => Done (Err e, resolver)
  | Ok ast => resolver_resolve ast resolver
  end.

(** src/main.rs:133-138 [report_error] *)
Definition report_error (l : source_loc) (message : string) : string :=
  "[line " ++ decimal (loc_line l) ++ ":" ++ decimal (loc_column l) ++ "] Error: " ++
  message ++ s_nl.
(** src/main.rs:140-145 [report_error_at_token] *)
Definition report_error_at_token (l : source_loc) (token message : string) : string :=
  "[line " ++ decimal (loc_line l) ++ ":" ++ decimal (loc_column l) ++ "] Error at '" ++
  token ++ "': " ++ message ++ s_nl.
(** src/main.rs:124-131 [print_parse_error] *)
Definition print_parse_error (c : cause) : string :=
  match c_token c with
  | None => report_error (c_loc c) (c_message c)
  | Some t => report_error_at_token (c_loc c) t (c_message c)
  end.

(** src/main.rs:104-122 [print_result], always called with
    [print_success = true]: what it writes to stdout and to stderr *)
Definition print_result (r : result (list stmt) parse_error) : string * string :=
  match r with
  | Ok statements => (debug_program F statements ++ s_nl, "")
  | Err causes => ("", cat (map print_parse_error causes))
  end.

(** How a process ends, and what it wrote before. *)
Inductive ending : Type :=
| Exited (status : N)
| Aborted (why : string)   (* a panic, status 101 *)
| Hung                     (* never ends *)
| NoFuel.                  (* the model's bound, never reached *)
Record process : Type := mkProcess { p_out : string; p_err : string; p_end : ending }.

(** What [File::open] and [read_to_string] meet. *)
Inductive file : Type :=
| NoFile                         (* cannot be opened *)
| Unreadable                     (* a read error, or not UTF-8 *)
| Contents (source : list string).

(** src/main.rs:74-86 [run_file] and the branch of [main] that calls it,
    src/main.rs:38-46.  [name] is the file's path, not empty; the parsing of
    the command line by the argparse crate is not modelled. *)
Definition main_file (name : string) (f : file) : process :=
  match f with
  | NoFile => mkProcess "" "" (Aborted ("source file not found: " ++ name))
  | Unreadable => mkProcess "" "" (Aborted ("unable to read file: " ++ name))
  | Contents source =>
    match (olet s <- resolver_new ;; run s source false) with
    | Done (r, _) =>
      let '(out, err) := print_result r in
      mkProcess out err (Exited (match r with Ok _ => 0 | Err _ => 65 end))
    | Panicked w => mkProcess "" "" (Aborted w)
    | Diverged => mkProcess "" "" Hung
    | OutOfFuel => mkProcess "" "" NoFuel
    end
  end.

(** What [read_line] meets: a line with its newline, if it has one, the empty
    string at the end of input; or an error (with its [Debug] text). *)
Inductive input : Type :=
| Line (source : list string)
| Failure (error : string).

(** src/main.rs:50-71 [run_repl]: an iteration of the loop from the prompt to
    the next prompt.  [reading] is the state in which the prompt has been
    written and the REPL waits for input. *)
Record reading : Type := mkReading { r_out : string; r_err : string; r_resolver : rstate }.
Inductive repl_state : Type :=
| Reading (r : reading)
| Finished (p : process).
Definition prompt : string := "> ".
Definition repl_read (r : reading) (i : input) : repl_state :=
  match i with
  | Failure e =>
    Finished (mkProcess (r_out r ++ "Error reading stdin: " ++ e ++ s_nl) (r_err r)
                        (Exited 0))
  | Line source =>
    match run (r_resolver r) source true with
    | Done (res, s) =>
      let '(out, err) := print_result res in
      Reading (mkReading (r_out r ++ out ++ prompt) (r_err r ++ err) s)
    | Panicked w => Finished (mkProcess (r_out r) (r_err r) (Aborted w))
    | Diverged => Finished (mkProcess (r_out r) (r_err r) Hung)
    | OutOfFuel => Finished (mkProcess (r_out r) (r_err r) NoFuel)
    end
  end.
Definition repl_start : repl_state :=
  match resolver_new with
  | Done s => Reading (mkReading prompt "" s)
  | Panicked w => Finished (mkProcess "" "" (Aborted w))
  | Diverged => Finished (mkProcess "" "" Hung)
  | OutOfFuel => Finished (mkProcess "" "" NoFuel)
  end.
(** The REPL after these reads. *)
Definition repl_step (st : repl_state) (i : input) : repl_state :=
  match st with
  | Reading r => repl_read r i
  | Finished p => Finished p
  end.
Definition repl (l : list input) : repl_state := fold_left repl_step l repl_start.

(** ** src/error.rs *)
(** src/error.rs:72-90 [Display for ParseErrorCause] *)
Definition display_cause (c : cause) : string :=
  match c_token c with
  | Some t =>
    decimal (loc_line (c_loc c)) ++ ":" ++ decimal (loc_column (c_loc c)) ++ " at " ++
    f_str F t ++ ": " ++ c_message c ++ s_nl
  | None =>
    decimal (loc_line (c_loc c)) ++ ":" ++ decimal (loc_column (c_loc c)) ++ ": " ++
    c_message c ++ s_nl
  end.
(** src/error.rs:14-21 [Display for ParseError] *)
Definition display_error (e : parse_error) : string :=
  cat (map (fun c => display_cause c ++ s_nl) e).

(** ** src/wasm.rs:14-23 [wasm_parse_string], exported as parseString.  The
    error is the message of the JavaScript error. *)
Definition parse_string (source : list string) : outcome (result js string) :=
  olet r <- parse U overflow_checks source ;;
  match r with
  | Err e => Done (Err (display_error e))
  | Ok ast =>
    olet r' <- resolve ast ;;
    match r' with
    | Err e => Done (Err (display_error e))
    | Ok l => Done (Ok (JArray (map jstmt l)))
    end
  end.

(** index.html:146-159 [onChange]: the text shown *)
Definition on_change (source : list string) : outcome string :=
  olet r <- parse_string source ;;
  Done (match r with Err m => m | Ok v => display F v end).

End Drive.
