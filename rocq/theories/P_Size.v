(** Properties of sizes and nesting (src/scanner.rs, src/parser.rs,
    src/resolver.rs): C82 and C83.

    [stmt_parts], [expr_parts] and [program_size] (SpecSize.v) count the parts
    of trees; [grouped n e] is [e] in [n] pairs of parentheses. *)
From Verif Require Import Base F64 Token Ast Scanner Parser Resolver Segment SpecLex SpecScan SpecParse SpecSize
  ScanFinal ParseFinal SizeScan SizeFinal Nesting TestsParser P_Parser P_Resolver P_Driver.
Local Open Scope string_scope.

(** ** C82 *)
Theorem C82_tokens : forall U gs toks, sane U -> valid_source gs ->
  scan_tokens U gs = Done (Ok toks) -> List.length toks <= 2 * List.length gs + 1.
Proof. exact (fun U gs toks Sn V H => scan_bound U gs Sn V (Ok toks) H). Qed.
Print Assumptions C82_tokens.
Theorem C82_scan_errors : forall U gs errs, sane U -> valid_source gs ->
  scan_tokens U gs = Done (Err errs) -> List.length errs <= List.length gs.
Proof. exact (fun U gs errs Sn V H => scan_bound U gs Sn V (Err errs) H). Qed.
Print Assumptions C82_scan_errors.
Theorem C82_tree_of_tokens : forall U oc gs toks l, sane U -> valid_source gs ->
  scan_tokens U gs = Done (Ok toks) -> accepted U oc gs l -> program_size l + 2 <= 2 * List.length toks.
Proof. exact (fun U oc gs toks l Sn V => program_tokens U Sn oc gs V toks l). Qed.
Print Assumptions C82_tree_of_tokens.
Theorem C82_tree : forall U oc gs l, sane U -> valid_source gs ->
  accepted U oc gs l -> program_size l <= 4 * List.length gs.
Proof. exact (fun U oc gs l Sn V => program_source U Sn oc gs V l). Qed.
Print Assumptions C82_tree.
Theorem C82_expression : forall U oc gs e, sane U -> valid_source gs ->
  parse_expression U oc gs = Done (Ok e) -> expr_parts e <= 4 * List.length gs.
Proof. exact (fun U oc gs e Sn V => expression_source U Sn oc gs V e). Qed.
Print Assumptions C82_expression.
Theorem C82_parse_errors : forall U oc gs cs, sane U -> valid_source gs ->
  parse U oc gs = Done (Err cs) \/ parse_repl_line U oc gs = Done (Err cs) ->
  List.length cs <= 2 * List.length gs + 1.
Proof. exact (fun U oc gs cs Sn V => errors_source U Sn oc gs V cs). Qed.
Print Assumptions C82_parse_errors.
Theorem C82_resolve_errors : forall l s es s',
  resolver_resolve l s = Done (Err es, s') -> List.length es <= List.length l.
Proof. exact resolve_errors_count. Qed.
Print Assumptions C82_resolve_errors.
Example C82_example :
  sane sample_unicode /\ valid_source (source everything) /\
  accepted sample_unicode true (source everything) (program_of everything) /\
  List.length (source everything) = 259 /\ List.length (tokens_of_source (source everything)) = 124 /\
  program_size (program_of everything) = 69 /\
  (* more tokens than clusters; as many parts as clusters *)
  List.length (source ["a"; " b"]) = 5 /\ List.length (tokens_of_source (source ["a"; " b"])) = 7 /\
  List.length (source ["f x"]) = 4 /\ program_size (program_of ["f x"]) = 4 /\
  (* a full set of errors *)
  List.length (messages (resolve_src ["return 1"; "return 2"; "return 3"])) = 3.
Proof.
  parts; [exact sample_sane|apply check_valid; vm_compute; reflexivity|left; vm_compute; reflexivity|..];
    vm_compute; reflexivity.
Qed.

(** ** C83 *)
(** A variable in any number of parentheses is a program ... *)
Theorem C83_accepted : forall U oc n, sane U -> u_alphabetic U 120 = true -> u_alphanumeric U 41 = false ->
  parse U oc (parens n ++ [s_nl])%list =
  Done (Ok [SExpression (grouped n (EVariable "x" var_placeholder (position (repeat "(" n))))]).
Proof. exact (fun U oc n Sn Ux Uc => nest_parse U Sn Ux Uc n oc). Qed.
Print Assumptions C83_accepted.
(** ... and [n] nested calls of [expression] are not enough to parse it. *)
Theorem C83_recursion : forall U oc tr n, sane U -> u_alphabetic U 120 = true -> u_alphanumeric U 41 = false ->
  exists toks, scan_tokens U (parens n ++ [s_nl])%list = Done (Ok toks) /\
  forall m, m <= n -> k_expr (level toks tr oc m) (mkP 0 0) = PFuel.
Proof.
  exact (fun U oc tr n Sn Ux Uc =>
    ex_intro _ (nest_tokens n) (conj (nest_scan U Sn Ux Uc n) (nest_deep n tr oc))).
Qed.
Print Assumptions C83_recursion.
(** No limit on the recursion serves all sources. *)
Theorem C83_bounded_recursion_refuted : forall tr oc, ~ (exists m, forall gs toks, valid_source gs ->
  scan_tokens sample_unicode gs = Done (Ok toks) ->
  k_expr (level toks tr oc m) (mkP 0 0) <> PFuel).
Proof.
  exact (fun tr oc H => match H with ex_intro _ m H =>
    H _ _ (parens_valid m) (nest_scan sample_unicode sample_sane eq_refl eq_refl m)
      (nest_deep m tr oc m (le_n m)) end).
Qed.
Print Assumptions C83_bounded_recursion_refuted.
Example C83_example :
  u_alphabetic sample_unicode 120 = true /\ u_alphanumeric sample_unicode 41 = false /\
  parens 2 = ["("; "("; "x"; ")"; ")"] /\
  parse sample_unicode true (parens 2 ++ [s_nl])%list =
    Done (Ok [SExpression (EGrouping (EGrouping (EVariable "x" var_placeholder (mkLoc 1 3))))]) /\
  k_expr (level (nest_tokens 2) false true 3) (mkP 0 0) <> PFuel.
Proof. parts; try (vm_compute; reflexivity). vm_compute. discriminate. Qed.
