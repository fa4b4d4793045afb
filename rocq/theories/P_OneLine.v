(** Property of programs on one line, such as those typed in the REPL
    (src/scanner.rs, src/parser.rs, src/driver.rs): C86.

    [single_line] (SpecOneLine.v) is what [read_line] returns: no newline except
    perhaps at the end.  [sayable] says that at most one statement needs the end
    of the line and that it is the last one, [line_ended] that a statement can
    be ended by it. *)
From Coq Require Import ZArith Floats.SpecFloat.
From Verif Require Import Base F64 Token Ast Scanner Parser Segment SpecLex SpecTree SpecPrint SpecPlace SpecWrite SpecOneLine
  SpecParse ScanFinal ParseProps ParseMore ParseFinal WriteFinal OneLineFinal OneLineText TestsParser P_Parser P_Driver.
Local Open Scope string_scope.

(** ** C86 *)
Theorem C86_line : forall U oc gs l, sane U -> valid_source gs -> single_line gs -> accepted U oc gs l -> sayable l.
Proof. exact (fun U oc gs l Sn V SL A => proj1 (typed_line U Sn oc gs l V SL A)). Qed.
Print Assumptions C86_line.
(** No function or method that can be typed on one line does anything but
    declare: there is no room for a statement that ends with its line. *)
Theorem C86_functions : forall U oc gs l f st, sane U -> valid_source gs -> single_line gs -> accepted U oc gs l ->
  In (PFun f) (program_parts l) -> In (PStmt st) (fun_parts f) ->
  match st with SExpression _ | SPrint _ | SReturn _ _ | SBreak _ | SContinue _ => False | _ => True end.
Proof. exact (fun U oc gs l f st Sn V SL A => sayable_bodies l f st (proj1 (typed_line U Sn oc gs l V SL A))). Qed.
Print Assumptions C86_functions.
(** A line that the scanner ends with a newline token is only accepted if its
    last statement is one that can take it. *)
Theorem C86_enter : forall U oc gs toks l, sane U -> valid_source gs -> single_line gs ->
  scan_tokens U gs = Done (Ok toks) -> Exists (fun t => t_type t = Terminator) toks -> accepted U oc gs l ->
  exists l' st, l = (l' ++ [st])%list /\ line_ended st = true.
Proof. exact (fun U oc gs toks l Sn V SL S E A => proj2 (typed_line U Sn oc gs l V SL A) toks S E). Qed.
Print Assumptions C86_enter.
(** So a program with a function that returns something cannot be typed. *)
Theorem C86_not_everything :
  ~ (forall U oc gs l, sane U -> valid_source gs -> accepted U oc gs l ->
     exists gs' l', valid_source gs' /\ single_line gs' /\ accepted U oc gs' l' /\ map unplaced l' = map unplaced l).
Proof.
  intros H.
  destruct (H sample_unicode true (source ["fun f()"; "  return 1"; ""]) (program_of ["fun f()"; "  return 1"; ""]) sample_sane)
    as (gs' & l' & V & SL & A & M);
    [apply check_valid; vm_compute; reflexivity|left; vm_compute; reflexivity|].
  exact (no_return_line sample_unicode true "f" (ENumber (S754_finite false 4503599627370496 (-52))) (mkLoc 1 1) (mkLoc 1 1)
    PlainFunction gs' l' sample_sane V SL A ltac:(rewrite M; vm_compute; reflexivity)).
Qed.
Print Assumptions C86_not_everything.
(** The other way round: a program whose only statement that ends with its line
    is at its end can be typed. *)
Theorem C86_typed : forall U oc l, knows_ascii U -> well_formed l -> line_program l -> terse_line l ->
  single_line (chars (program_text l)) /\
  (exists l', parse_repl_line U oc (chars (program_text l)) = Done (Ok l') /\ map unplaced l' = map unplaced l) /\
  exists l', parse U oc (chars (program_text l)) = Done (Ok l') /\ map unplaced l' = map unplaced l.
Proof. exact terse_typed. Qed.
Print Assumptions C86_typed.

Definition typed_example : string := "fun f(a) {} class A < B { m() {} } if (f(1)) {} else print [f, {""x"": 2}]" ++ s_nl.
Definition typed_tree : list stmt :=
  match parse_repl_line sample_unicode true (chars typed_example) with Done (Ok l) => l | _ => nil end.
Definition typed (s : string) : bool := is_ok (parse_repl_line sample_unicode true (chars s)).
Example C86_example :
  valid_source (chars typed_example) /\ single_line (chars typed_example) /\
  accepted sample_unicode true (chars typed_example) typed_tree /\ List.length typed_tree = 3 /\
  line_program typed_tree /\ terse_line typed_tree /\
  Exists (fun t => t_type t = Terminator) (tokens_of_source (chars typed_example)) /\
  map typed ["fun f() {}"; "fun f() {}" ++ s_nl; "fun f() {} f()" ++ s_nl; "class A {}" ++ s_nl;
             "fun f() { return 1 }" ++ s_nl; "while (a) {}" ++ s_nl; "while (a) print a" ++ s_nl] =
    [true; false; true; false; false; false; true].
Proof.
  parts;
    [ apply check_valid; vm_compute; reflexivity | apply no_newline_lineb; vm_compute; reflexivity
    | right; vm_compute; reflexivity | vm_compute; reflexivity
    | apply line_programb; [apply ascii_programb|]; vm_compute; reflexivity
    | apply terse_lineb; vm_compute; reflexivity
    | apply Exists_exists; eexists (mkToken Terminator _ _ _ _ _); split; [vm_compute; do 40 (try (left; reflexivity); right)|reflexivity]
    | vm_compute; reflexivity ].
Qed.
