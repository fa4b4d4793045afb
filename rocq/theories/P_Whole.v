(** Properties of the resolver's errors (src/resolver.rs), C65 and C66, and of
    the whole front end (src/main.rs, src/wasm.rs), C67-C69 and C63.

    [program_causes w l] are the errors of the program [l] by the checks of
    SpecCheck.v, made in a global scope [w]; [None] if [l] is nested too deeply.
    [means] puts the specifications of scanning, parsing and resolving one
    after the other (SpecWhole.v). *)
From Verif Require Import Base F64 Token Ast Scanner Parser Resolver Show Driver Segment SpecLex SpecScan
  SpecResolve SpecCheck SpecDriver SpecWhole
  ResolveFinal ResolveProps ResolveCauses DriverFacts Whole ScanFinal TestsParser P_Resolver P_Driver.
Local Open Scope string_scope.

(** ** C65 *)
Theorem C65_resolve_errors : forall l,
  match program_causes new_world l with
  | None => exists why, resolve l = Panicked why
  | Some (nil, _) => exists l', resolve l = Done (Ok l')
  | Some (es, _) => resolve l = Done (Err es)
  end.
Proof. exact resolve_exact. Qed.
Print Assumptions C65_resolve_errors.
(** Several programs given to one resolver: the errors of each. *)
Theorem C65_session_errors : forall ps ess,
  (exists w, session_causes new_world ps = Some (ess, w)) <->
  (exists h s, history h s /\ map fst h = ps /\ map (fun p => errors_of (snd p)) h = ess).
Proof. exact session_exact. Qed.
Print Assumptions C65_session_errors.

Definition told (l : list cause) := map (fun c => (c_loc c, c_token c, c_message c)) l.
Definition untidy : list string :=
  ["class A < A"; "  f()"; "    return this"; "return 1"; "var x = x"; "print x";
   "fun f(a, a)"; "  print b"; "super.go"; "class B < C"; "  init()"; "    return super.init()";
   "print this"; "fun h(g)"; "  if (g)"; "    var g = 1"; "  var g = 2"; "class D"; "  go()"; "    super.go()"].
Example C65_example :
  match program_causes new_world (tree_of untidy) with
  | Some (es, w) =>
    resolve (tree_of untidy) = Done (Err es) /\
    told es =
      [(mkLoc 1 11, Some "A", "A class cannot inherit from itself.");
       (mkLoc 4 1, Some "return", "Cannot return from top-level code.");
       (mkLoc 5 9, Some "x", "Cannot read local variable in its own initializer.");
       (mkLoc 6 7, Some "x", "Cannot read local variable in its own initializer.");
       (mkLoc 7 10, Some "a", "Variable with this name already declared in this scope.");
       (mkLoc 9 1, Some "super", "Cannot use 'super' outside of a class.");
       (mkLoc 12 5, Some "return", "Cannot return a value from an initializer.");
       (mkLoc 13 7, Some "this", "Cannot use 'this' outside of a class.");
       (mkLoc 17 7, Some "g", "Variable with this name already declared in this scope.");
       (mkLoc 20 5, Some "super", "Cannot use 'super' in a class with no superclass.")]
  | None => False
  end.
Proof. vm_compute. repeat split. Qed.

(** ** C66 *)
(** What a session leaves behind: the globals that have a slot, in slot order,
    and those that cannot be read because their declaration failed. *)
Theorem C66_session_globals : forall h s, history h s ->
  exists ess w, session_causes new_world (map fst h) = Some (ess, w) /\
  table s = w_table w /\ (forall x, In x (c_blocked (context s)) <-> In x (w_blocked w)).
Proof. exact session_globals. Qed.
Print Assumptions C66_session_globals.
Example C66_example :
  match session_causes new_world [tree_of ["var a = b"]; tree_of ["class C < C"; "  go()"; "    return"]; tree_of ["var d = d"];
                                  tree_of ["fun f()"; "  return e"]; tree_of ["var e = e"]] with
  | Some (ess, w) =>
    map (fun es => length es) ess = [0; 1; 1; 0; 1] /\
    w_table w = ["a"; "b"; "C"; "d"; "f"; "e"] /\ w_known w = ["a"; "C"; "f"] /\ w_blocked w = ["e"; "d"]
  | None => False
  end.
Proof. vm_compute. repeat split. Qed.

(** ** C67 *)
Theorem C67_file : forall U oc F name gs, sane U -> valid_source gs ->
  exists f, (exists w, means U false new_world gs f w) /\
    (forall f' w, means U false new_world gs f' w -> f' = f) /\
    file_ends F f (main_file U oc F name (Contents gs)).
Proof. exact (fun U oc F name gs Sn => file_whole U Sn oc F name gs). Qed.
Print Assumptions C67_file.
Example C67_example :
  sane sample_unicode /\ valid_source (source untidy) /\
  p_end (run_file untidy) = Exited 65 /\
  run_file ["print ~"] = mkProcess "" ("[line 1:8] Error: Unexpected token: ~" ++ s_nl) (Exited 65) /\
  p_end (run_file ["if (a)"; "    if (b)"; "        c"; "      d"]) = Hung /\
  p_end (run_file ["print 1"]) = Exited 0.
Proof. sample. Qed.

(** ** C68 *)
Theorem C68_javascript : forall U oc F gs f w, sane U -> valid_source gs ->
  means U false new_world gs f w -> call_ends F f (parse_string U oc F gs).
Proof. exact (fun U oc F gs f w Sn => wasm_whole U Sn oc F gs f w). Qed.
Print Assumptions C68_javascript.
(** The command line and the page agree. *)
Theorem C68_same_verdict : forall U oc F name gs, sane U -> valid_source gs ->
  exists f, file_ends F f (main_file U oc F name (Contents gs)) /\ call_ends F f (parse_string U oc F gs).
Proof. exact same_verdict. Qed.
Print Assumptions C68_same_verdict.

Example C68_example :
  parse_string sample_unicode true sample_formats (source ["class A < A"; "  f()"; "    return"; "print this"]) =
    Done (Err ("1:11 at ""A"": A class cannot inherit from itself." ++ s_nl ++ s_nl ++
               "4:7 at ""this"": Cannot use 'this' outside of a class." ++ s_nl ++ s_nl)).
Proof. sample. Qed.

(** ** C69 *)
Theorem C69_session : forall U oc F l out err, sane U -> Forall valid_source l ->
  ((exists w, dialogue U F l out err w) <->
   (exists s, repl U oc F (map Line l) = Reading (mkReading out err s))).
Proof. exact (fun U oc F l out err Sn => session_whole U Sn oc F l out err). Qed.
Print Assumptions C69_session.
Theorem C69_next_line : forall U oc F l out err w gs, sane U -> Forall valid_source l -> valid_source gs ->
  dialogue U F l out err w ->
  exists f, (exists w', means U true w gs f w') /\
    (forall f' w', means U true w gs f' w' -> f' = f) /\
    line_ends out err f (repl U oc F (map Line (l ++ [gs]))).
Proof. exact (fun U oc F l out err w gs Sn => session_line U Sn oc F l out err w gs). Qed.
Print Assumptions C69_next_line.
Example C69_example :
  match session ["var a = b"; "return a"; "this.b + a"; "a"; "var d = d"; "print d"] with
  | Reading (mkReading out err _) =>
    err = "[line 1:1] Error at 'return': Cannot return from top-level code." ++ s_nl ++
          "[line 1:1] Error at 'this': Cannot use 'this' outside of a class." ++ s_nl ++
          "[line 1:9] Error at 'd': Cannot read local variable in its own initializer." ++ s_nl ++
          "[line 1:7] Error at 'd': Cannot read local variable in its own initializer." ++ s_nl
  | _ => False
  end.
Proof. vm_compute. reflexivity. Qed.

(** ** C63 *)
Theorem C63_file : forall U F name f, sane U ->
  match f with Contents gs => valid_source gs | _ => True end ->
  main_file U true F name f = main_file U false F name f.
Proof. exact same_file. Qed.
Print Assumptions C63_file.
Theorem C63_javascript : forall U F gs, sane U -> valid_source gs ->
  parse_string U true F gs = parse_string U false F gs.
Proof. exact same_call. Qed.
Print Assumptions C63_javascript.
Theorem C63_repl : forall U F l, sane U -> Forall valid_read l -> repl U true F l = repl U false F l.
Proof. exact same_session. Qed.
Print Assumptions C63_repl.
(** With and without overflow checks: a program with errors, and a session. *)
Example C63_whole_example :
  main_file sample_unicode false sample_formats "a.ws" (Contents (source ["var = 1"; "print 2"; "fun 3"])) =
    mkProcess "" ("[line 1:5] Error at '=': Expect variable name." ++ s_nl ++
                  "[line 3:5] Error at '3': Expect '(' after function name." ++ s_nl) (Exited 65) /\
  main_file sample_unicode true sample_formats "a.ws" (Contents (source ["var = 1"; "print 2"; "fun 3"])) =
  main_file sample_unicode false sample_formats "a.ws" (Contents (source ["var = 1"; "print 2"; "fun 3"])).
Proof.
  split; [vm_compute; reflexivity|]. apply C63_file; [apply sample_sane|]. apply check_valid. vm_compute. reflexivity.
Qed.
