(** src/main.rs once more, with streams that can fail, and the choice [main]
    makes between a file and the REPL.

    A stream takes a certain number of bytes (or any number) and then fails: a
    full disk, a pipe whose reader is gone.  [print!], [println!] and
    [eprintln!] panic when a write fails, and so does the [expect] after
    [flush].  Standard output is line buffered, but all texts written end with
    a newline or are flushed, so buffering is not observable at the places
    where the program waits or ends.  The standard library treats a stream that
    does not exist at all as one that takes everything.  The message of the
    panic is not part of what is written, as in Driver.v. *)
From Verif Require Import Base F64 Token Ast Scanner Parser Resolver Show Driver.
Local Open Scope string_scope.

(** What has been written, and how many more bytes the streams take. *)
Record console : Type := mkConsole
  { c_out : string; c_err : string; room_out : option nat; room_err : option nat }.
(** The part of [s] that is taken, and the room after it, if it is taken whole. *)
Definition take (room : option nat) (s : string) : string * option (option nat) :=
  match room with
  | None => (s, Some None)
  | Some n => if Nat.leb (slen s) n then (s, Some (Some (n - slen s)))
              else (substring 0 n s, None)
  end.
(** A write goes on, or ends the process. *)
Inductive written : Type :=
| Going (c : console)
| Stopped (p : process).
Definition then_ (w : written) (k : console -> written) : written :=
  match w with Going c => k c | Stopped p => Stopped p end.
(** [print!] and [println!] *)
Definition print_out (s : string) (c : console) : written :=
  match take (room_out c) s with
  | (t, Some room) => Going (mkConsole (c_out c ++ t) (c_err c) room (room_err c))
  | (t, None) => Stopped (mkProcess (c_out c ++ t) (c_err c) (Aborted "failed printing to stdout"))
  end.
(** [eprintln!] *)
Definition print_err (s : string) (c : console) : written :=
  match take (room_err c) s with
  | (t, Some room) => Going (mkConsole (c_out c) (c_err c ++ t) (room_out c) room)
  | (t, None) => Stopped (mkProcess (c_out c) (c_err c ++ t) (Aborted "failed printing to stderr"))
  end.

Section Drive.
Variable U : unicode.
Variable overflow_checks : bool.
Variable F : formats.

(** src/main.rs:104-122 [print_result]: the causes are written one by one *)
Fixpoint print_causes (causes : list cause) (c : console) : written :=
  match causes with
  | nil => Going c
  | x :: r => then_ (print_err (print_parse_error x) c) (print_causes r)
  end.
Definition print_result_on (r : result (list stmt) parse_error) (c : console) : written :=
  match r with
  | Ok statements => print_out (debug_program F statements ++ s_nl) c
  | Err causes => print_causes causes c
  end.
Definition ended (e : ending) (w : written) : process :=
  match w with Going c => mkProcess (c_out c) (c_err c) e | Stopped p => p end.

(** src/main.rs:74-86 [run_file], src/main.rs:38-46 [main] *)
Definition file_on (c : console) (name : string) (f : file) : process :=
  match f with
  | NoFile => mkProcess (c_out c) (c_err c) (Aborted ("source file not found: " ++ name))
  | Unreadable => mkProcess (c_out c) (c_err c) (Aborted ("unable to read file: " ++ name))
  | Contents source =>
    match (olet s <- resolver_new ;; run U overflow_checks s source false) with
    | Done (r, _) => ended (Exited (match r with Ok _ => 0 | Err _ => 65 end)) (print_result_on r c)
    | Panicked w => mkProcess (c_out c) (c_err c) (Aborted w)
    | Diverged => mkProcess (c_out c) (c_err c) Hung
    | OutOfFuel => mkProcess (c_out c) (c_err c) NoFuel
    end
  end.

(** src/main.rs:50-71 [run_repl] *)
Inductive session : Type :=
| Waiting (c : console) (resolver : rstate)
| Over (p : process).
(** The prompt, and then waiting for input *)
Definition prompt_on (resolver : rstate) (w : written) : session :=
  match then_ w (print_out prompt) with
  | Going c => Waiting c resolver
  | Stopped p => Over p
  end.
Definition session_start (c : console) : session :=
  match resolver_new with
  | Done s => prompt_on s (Going c)
  | Panicked w => Over (mkProcess (c_out c) (c_err c) (Aborted w))
  | Diverged => Over (mkProcess (c_out c) (c_err c) Hung)
  | OutOfFuel => Over (mkProcess (c_out c) (c_err c) NoFuel)
  end.
Definition session_step (st : session) (i : input) : session :=
  match st with
  | Over p => Over p
  | Waiting c resolver =>
    match i with
    | Failure e => Over (ended (Exited 0) (print_out ("Error reading stdin: " ++ e ++ s_nl) c))
    | Line source =>
      match run U overflow_checks resolver source true with
      | Done (res, s) => prompt_on s (print_result_on res c)
      | Panicked w => Over (mkProcess (c_out c) (c_err c) (Aborted w))
      | Diverged => Over (mkProcess (c_out c) (c_err c) Hung)
      | OutOfFuel => Over (mkProcess (c_out c) (c_err c) NoFuel)
      end
    end
  end.
Definition session_on (c : console) (l : list input) : session := fold_left session_step l (session_start c).

(** src/main.rs:21-48 [main] after the arguments have been read:
    [script_filename] is the argument, or empty if there is none.  [f] is what
    the file system has under that name, [l] what is read from stdin. *)
Definition main (c : console) (script_filename : string) (f : file) (l : list input) : session :=
  if String.eqb script_filename "" then session_on c l else Over (file_on c script_filename f).
End Drive.
