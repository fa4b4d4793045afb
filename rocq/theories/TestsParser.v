(** The unit tests of src/parser.rs:1308-1927, replayed on the model.  These are
    tests of the model's fidelity, not proofs of properties. *)
From Verif Require Import Base F64 Token Ast Scanner Parser Segment.

(** src/parser.rs:1314-1321 *)
Definition parse_nonl (s : string) := parse sample_unicode true (segment s).
Definition parse_src (s : string) := parse_nonl (String.append s s_nl).
Definition parse_expr_src (s : string) :=
  parse_expression sample_unicode true (segment s).
(** Lines joined by newlines. *)
Fixpoint lns (l : list string) : string :=
  match l with
  | nil => EmptyString
  | [s] => s
  | s :: r => String.append s (String.append s_nl (lns r))
  end.
Definition num (s : string) : expr :=
  match parse_f64 s with Some x => ENumber x | None => ENil end.
Definition var_at (x : string) (l c : N) : expr :=
  EVariable x var_placeholder (mkLoc l c).
Definition is_ok {A E} (o : outcome (result A E)) : bool :=
  match o with Done (Ok _) => true | _ => false end.
Definition is_err {A E} (o : outcome (result A E)) : bool :=
  match o with Done (Err _) => true | _ => false end.
Ltac run := vm_compute; reflexivity.

Example test_parse_literal :
  parse_expr_src "42" = Done (Ok (num "42")) /\
  parse_expr_src """hello""" = Done (Ok (EString "hello")) /\
  parse_expr_src "true" = Done (Ok (EBool true)) /\
  parse_expr_src "false" = Done (Ok (EBool false)) /\
  parse_expr_src "nil" = Done (Ok ENil).
Proof. repeat split; run. Qed.

Example test_parse_binary_op :
  parse_expr_src "40 + 2" =
  Done (Ok (EBinary (num "40") BPlus (num "2") (mkLoc 1 4))).
Proof. run. Qed.

Example test_parse_unary_op :
  parse_expr_src "-42" = Done (Ok (EUnary UMinus (num "42") (mkLoc 1 1))) /\
  parse_expr_src "!true" = Done (Ok (EUnary UNot (EBool true) (mkLoc 1 1))).
Proof. split; run. Qed.

Example test_parse_grouping :
  parse_expr_src "(40)" = Done (Ok (EGrouping (num "40"))).
Proof. run. Qed.

Example test_parse_assign :
  parse_expr_src "x = 1" =
  Done (Ok (EAssign "x" var_placeholder (num "1") (mkLoc 1 3))).
Proof. run. Qed.

Example test_parse_super_property :
  parse_expr_src "super.x" = Done (Ok (ESuper var_placeholder "x" (mkLoc 1 1))) /\
  parse_src "super.y" =
  Done (Ok [SExpression (ESuper var_placeholder "y" (mkLoc 1 1))]).
Proof. split; run. Qed.

Example test_parse_comparison :
  parse_expr_src "42 == 40 + 2" =
  Done (Ok (EBinary (num "42") BEqual
              (EBinary (num "40") BPlus (num "2") (mkLoc 1 10)) (mkLoc 1 4))).
Proof. run. Qed.

Example test_parse_invalid :
  parse_src "and" =
  Done (Err [cause_at (mkLoc 1 1) "and" "Expect expression."]).
Proof. run. Qed.

Example test_parse_statements :
  parse_src "print ""one""" = Done (Ok [SPrint (EString "one")]).
Proof. run. Qed.

Example test_parse_comments :
  parse_nonl "// comment" = Done (Ok nil) /\
  parse_src "// comment" = Done (Ok nil) /\
  parse_src "true // comment" = Done (Ok [SExpression (EBool true)]).
Proof. repeat split; run. Qed.

Example test_parse_call :
  parse_src "f(1)" =
  Done (Ok [SExpression (ECall (var_at "f" 1 1) [num "1"] (mkLoc 1 2))]) /\
  parse_src "f(1, 2)" =
  Done (Ok [SExpression (ECall (var_at "f" 1 1) [num "1"; num "2"] (mkLoc 1 2))]).
Proof. split; run. Qed.

Example test_parse_juxtaposition_as_call :
  parse_src "f 1" =
  Done (Ok [SExpression (ECall (var_at "f" 1 1) [num "1"] (mkLoc 1 3))]) /\
  parse_src "f 1, 2" =
  Done (Ok [SExpression (ECall (var_at "f" 1 1) [num "1"; num "2"] (mkLoc 1 3))]) /\
  parse_src "f (1 + 2), 3" =
  Done (Ok [SExpression (ECall (var_at "f" 1 1)
    [EGrouping (EBinary (num "1") BPlus (num "2") (mkLoc 1 6)); num "3"]
    (mkLoc 1 3))]) /\
  parse_src "f(1 + 2), 3" =
  Done (Err [cause_at (mkLoc 1 9) "," "Expect newline after expression."]).
Proof. repeat split; run. Qed.

Example test_parse_if_statement :
  parse_src (lns [""; "if (true)"; "  1"]) =
  Done (Ok [SIf (EBool true) (SBlock [SExpression (num "1")]) None]).
Proof. run. Qed.

Example test_parse_while_loop_normal :
  parse_src (lns [""; "while (true)"; "  1"]) =
  Done (Ok [SWhile (EBool true) (SBlock [SExpression (num "1")])]) /\
  parse_src (lns [""; "while (true)"; "  if (x)"; "    y"]) =
  Done (Ok [SWhile (EBool true)
    (SBlock [SIf (var_at "x" 3 7)
                 (SBlock [SExpression (var_at "y" 4 5)]) None])]).
Proof. split; run. Qed.

Example test_parse_while_loop_break :
  parse_src "while (true) break" =
  Done (Ok [SWhile (EBool true) (SBreak (mkLoc 1 14))]) /\
  is_ok (parse_src "for (;;) if (true) break") = true /\
  is_ok (parse_src "while (true) if (true) break") = true /\
  is_ok (parse_src "while (true) while(true) break") = true /\
  is_err (parse_src "break") = true /\
  is_err (parse_src (lns ["for (;;) nil"; "break"])) = true.
Proof. repeat split; run. Qed.

Example test_parse_while_loop_continue :
  is_ok (parse_src "for (;;) if (true) continue") = true /\
  is_ok (parse_src "while (true) if (true) continue") = true /\
  is_ok (parse_src "while (true) while(true) continue") = true /\
  is_err (parse_src "continue") = true /\
  is_err (parse_src (lns ["for (;;) nil"; "continue"])) = true.
Proof. repeat split; run. Qed.

Example test_parse_for_loop_normal :
  parse_src (lns [""; "for (;;)"; "  2"]) =
  Done (Ok [SWhile (EBool true) (SBlock [SExpression (num "2")])]) /\
  parse_src (lns [""; "for (var x = 0; true; 1)"; "  2"]) =
  Done (Ok [SBlock [SVar "x" slot_placeholder (num "0") (mkLoc 2 10);
                    SWhileIncrement (EBool true)
                      (SBlock [SExpression (num "2")]) (num "1")]]) /\
  parse_src (lns [""; "for (var x = 0; true; 1)"; "  if (x)"; "    y"]) =
  Done (Ok [SBlock [SVar "x" slot_placeholder (num "0") (mkLoc 2 10);
                    SWhileIncrement (EBool true)
                      (SBlock [SIf (var_at "x" 3 7)
                        (SBlock [SExpression (var_at "y" 4 5)]) None])
                      (num "1")]]).
Proof. repeat split; run. Qed.

Example test_parse_array_literals :
  parse_expr_src "[]" = Done (Ok (EArray nil)) /\
  parse_expr_src "[1, 2]" = Done (Ok (EArray [num "1"; num "2"])) /\
  parse_expr_src "[1, 2,]" = Done (Ok (EArray [num "1"; num "2"])).
Proof. repeat split; run. Qed.

Example test_parse_array_get_index :
  parse_src "a[1]" =
  Done (Ok [SExpression (EGetIndex (var_at "a" 1 1) (num "1") (mkLoc 1 2))]).
Proof. run. Qed.

Definition the_map : expr := EMap [("f", num "1"); ("g", num "2")].
Example test_parse_map_literals :
  parse_expr_src "{}" = Done (Ok (EMap nil)) /\
  parse_expr_src "f: 1, g: 2" = Done (Ok the_map) /\
  parse_expr_src (lns ["f: 1,"; "g: 2"]) = Done (Ok the_map) /\
  parse_expr_src (lns ["f: 1,"; "g: 2,"]) = Done (Ok the_map).
Proof. repeat split; run. Qed.

Definition var_x (e : expr) : outcome (result (list stmt) parse_error) :=
  Done (Ok [SVar "x" slot_placeholder e (mkLoc 1 5)]).
Example test_parse_map_literals_in_statements :
  parse_src "var x = {}" = var_x (EMap nil) /\
  parse_src (lns ["var x ="; "  f: 1,"; "  g: 2,"; ""]) = var_x the_map /\
  parse_src (lns ["var x ="; "  f: 1"; "  g: 2"; ""]) = var_x the_map /\
  parse_src "var x = f: 1, g: 2" = var_x the_map /\
  parse_src (lns ["var x = f: 1,"; "g: 2"]) = var_x the_map /\
  parse_src (lns ["f: 1"; "g: 2"]) = Done (Ok [SExpression the_map]).
Proof. repeat split; run. Qed.

Example test_parse_map_literals_with_string_keys_in_statements :
  parse_src "var x = ""f"": 1, ""g"": 2" = var_x the_map /\
  parse_src (lns ["var x = ""f"": 1,"; """g"": 2"]) = var_x the_map /\
  parse_src (lns ["""f"": 1"; """g"": 2"]) = Done (Ok [SExpression the_map]).
Proof. repeat split; run. Qed.

Example test_parse_array_set_index :
  parse_src "a[1] = 3" =
  Done (Ok [SExpression (ESetIndex (var_at "a" 1 1) (num "1") (num "3")
                                   (mkLoc 1 6))]).
Proof. run. Qed.

Example test_function_with_whitespace_indentation :
  parse_src (lns [""; "fun foo()"; "  return 1"]) =
  Done (Ok [SFun (NamedFun "foo"
    (FunDef nil [SReturn (num "1") (mkLoc 3 3)] PlainFunction (mkLoc 2 5)))]).
Proof. run. Qed.
