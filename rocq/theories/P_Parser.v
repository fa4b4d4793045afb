(** Properties of the parser (src/parser.rs), C20-C34 and C57-C60.

    [gs] is the source as the list of its grapheme clusters, [U] the Unicode
    classification, [oc] tells whether overflow checks are on (debug builds).
    [accepted U oc gs l]: [parse] or [parse_repl_line] returns the program [l].
    [tree_parts U oc gs ps]: [ps] are all statements, expressions, classes and
    functions of a tree that one of the three entry points returns. *)
From Verif Require Import Base F64 Token Ast Scanner Parser Segment TestsParser
  SpecLex SpecLayout SpecScan SpecGrammar SpecParse SpecTree SpecPrint ScanFinal ParseProps ParseComplete
  ParseLine ParseMore ParseFinal.

(** Examples run on lines of source text, each ended by a newline. *)
Definition source (l : list string) : list string := segment (String.append (lns l) s_nl).
Definition tokens_of_source (gs : list string) : list token :=
  match scan_tokens sample_unicode gs with Done (Ok t) => t | _ => nil end.
Definition program_of (l : list string) : list stmt :=
  match parse sample_unicode true (source l) with Done (Ok t) => t | _ => nil end.
Ltac parts := repeat match goal with |- _ /\ _ => split end.
Ltac sample := parts; try (apply check_valid; vm_compute; reflexivity);
  try apply sample_sane; try (vm_compute; reflexivity).

(** ** C20 *)
Theorem C20_parse_returns : forall U oc gs, sane U -> valid_source gs ->
  (exists r, parse U oc gs = Done r) \/ (scan_tokens U gs = Diverged /\ parse U oc gs = Diverged).
Proof. exact (fun U oc gs Sn V => parse_total U Sn oc gs V). Qed.
Print Assumptions C20_parse_returns.
Theorem C20_parse_repl_line_returns : forall U oc gs, sane U -> valid_source gs ->
  (exists r, parse_repl_line U oc gs = Done r) \/
  (scan_tokens U gs = Diverged /\ parse_repl_line U oc gs = Diverged).
Proof. exact (fun U oc gs Sn V => parse_repl_line_total U Sn oc gs V). Qed.
Print Assumptions C20_parse_repl_line_returns.
Theorem C20_parse_expression_returns : forall U oc gs, sane U -> valid_source gs ->
  match parse_expression U oc gs with
  | Done _ => True
  | Diverged => scan_tokens U gs = Diverged
  | Panicked _ => oc = true /\ exists eof, scan_tokens U gs = Done (Ok [eof])
  | OutOfFuel => False
  end.
Proof. exact (fun U oc gs Sn V => parse_expression_total U Sn oc gs V). Qed.
Print Assumptions C20_parse_expression_returns.
Theorem C20_parse_expression_panics : forall U gs eof, sane U -> valid_source gs ->
  scan_tokens U gs = Done (Ok [eof]) -> exists w, parse_expression U true gs = Panicked w.
Proof. exact (fun U gs eof Sn V => parse_expression_panics U Sn gs V eof). Qed.
Print Assumptions C20_parse_expression_panics.
Example C20_example :
  sane sample_unicode /\ valid_source (source ["print ("; "var = 3"]) /\
  is_err (parse sample_unicode true (source ["print ("; "var = 3"])) = true /\
  match parse_expression sample_unicode true nil with Panicked _ => true | _ => false end = true /\
  is_err (parse_expression sample_unicode false nil) = true.
Proof. sample. Qed.

(** ** C21 *)
Theorem C21_parse_is_grammar : forall U oc gs toks l, sane U -> valid_source gs ->
  scan_tokens U gs = Done (Ok toks) ->
  (parse U oc gs = Done (Ok l) <->
   exists eof, t_type eof = Eof /\ derives false false Program toks (VSs l) [eof]).
Proof. exact (fun U oc gs toks l Sn V => parse_exact U Sn oc gs V toks l). Qed.
Print Assumptions C21_parse_is_grammar.
Theorem C21_parse_repl_line_is_grammar : forall U oc gs toks l, sane U -> valid_source gs ->
  scan_tokens U gs = Done (Ok toks) ->
  (parse_repl_line U oc gs = Done (Ok l) <->
   exists eof, t_type eof = Eof /\ derives true false Program toks (VSs l) [eof]).
Proof. exact (fun U oc gs toks l Sn V => parse_repl_exact U Sn oc gs V toks l). Qed.
Print Assumptions C21_parse_repl_line_is_grammar.
Theorem C21_parse_expression_is_grammar : forall U oc gs toks e, sane U -> valid_source gs ->
  scan_tokens U gs = Done (Ok toks) ->
  (parse_expression U oc gs = Done (Ok e) <->
   exists eof, t_type eof = Eof /\ derives false false Expression toks (VE e) [eof]).
Proof. exact (fun U oc gs toks e Sn V => parse_expression_exact' U Sn oc gs V toks e). Qed.
Print Assumptions C21_parse_expression_is_grammar.
Theorem C21_grammar_unambiguous : forall trailing b i st r st' r', tokens_ok i ->
  derives trailing b Declaration i (VS st) r -> derives trailing b Declaration i (VS st') r' ->
  st = st' /\ r = r'.
Proof. exact declaration_unambiguous. Qed.
Print Assumptions C21_grammar_unambiguous.
Definition fibonacci : list string :=
  ["fun fib(n)"; "  if (n < 2) return n"; "  return fib(n - 1) + fib(n - 2)"; "print fib(30)"].
Example C21_example :
  sane sample_unicode /\ valid_source (source fibonacci) /\
  scan_tokens sample_unicode (source fibonacci) = Done (Ok (tokens_of_source (source fibonacci))) /\
  parse sample_unicode true (source fibonacci) = Done (Ok (program_of fibonacci)) /\
  List.length (tokens_of_source (source fibonacci)) = 39 /\ List.length (program_of fibonacci) = 2.
Proof. sample. Qed.

(** ** C22 *)
Theorem C22_precedence : forall U oc gs ps, sane U -> valid_source gs -> tree_parts U oc gs ps ->
  Forall precedence_ok ps.
Proof. exact (fun U oc gs ps Sn V => precedence U Sn oc gs V ps). Qed.
Print Assumptions C22_precedence.
Example C22_example :
  parse_expr_src "1 - 2 - 3 * -4 == 5 or x = y = nil" = Done (Err [mkCause (mkLoc 1 26) (Some "=") "Invalid assignment target."]) /\
  match parse_expr_src "1 - 2 - 3 * -4 == 5 or !a.b and c" with
  | Done (Ok (ELogical (EBinary (EBinary (EBinary one BMinus two _) BMinus
      (EBinary three BMultiply (EUnary UMinus four _) _) _) BEqual five _) LOr
      (ELogical (EUnary UNot (EGet _ "b" _) _) LAnd _))) => True
  | _ => False
  end.
Proof. split; vm_compute; [reflexivity|exact I]. Qed.

(** ** C23 *)
Theorem C23_print_parse : forall l trailing oc, well_formed l ->
  parse_tokens (print_program l) trailing oc = Done (Ok l).
Proof. exact print_parse. Qed.
Print Assumptions C23_print_parse.
Theorem C23_accepted_well_formed : forall U oc gs l, sane U -> valid_source gs -> accepted U oc gs l ->
  well_formed l.
Proof. exact (fun U oc gs l Sn V => accepted_well_formed U Sn oc gs V l). Qed.
Print Assumptions C23_accepted_well_formed.
Theorem C23_trees_of_the_parser : forall l trailing oc, well_formed l <->
  exists toks, tokens_ok toks /\ parse_tokens toks trailing oc = Done (Ok l).
Proof. exact image. Qed.
Print Assumptions C23_trees_of_the_parser.
Definition everything : list string :=
  ["class A < B"; "  init(x, y)"; "    this.x = x"; "  class make()"; "    return A(1, -2)";
   "for (var i = 0; i < 3; i = i + 1)"; "  if (i == 2) break"; "  else continue";
   "var m = {a: 1, ""b"": [1, 2, nil]}"; "m[""a""] = fun(x) { return x"; "}(3)";
   "while (true and !false) print super.go or f 1, 2"].
Example C23_example :
  accepted sample_unicode true (source everything) (program_of everything) /\
  List.length (program_of everything) = 5 /\
  parse_tokens (print_program (program_of everything)) false true = Done (Ok (program_of everything)).
Proof. split; [left|split]; vm_compute; reflexivity. Qed.

(** ** C24 *)
Theorem C24_break_in_loop : forall U oc gs l, sane U -> valid_source gs -> accepted U oc gs l ->
  loops_enclose l.
Proof. exact (fun U oc gs l Sn V => loops_enclosed U Sn oc gs V l). Qed.
Print Assumptions C24_break_in_loop.
Theorem C24_break_in_loop_expression : forall U oc gs e, sane U -> valid_source gs ->
  parse_expression U oc gs = Done (Ok e) -> expr_strays e = nil.
Proof. exact (fun U oc gs e Sn V => loops_enclosed_expression U Sn oc gs V e). Qed.
Print Assumptions C24_break_in_loop_expression.
(** The loop need not be in the same function. *)
Theorem C24_same_function_refuted :
  ~ (forall U oc gs l f, sane U -> valid_source gs -> accepted U oc gs l ->
     In (PFun f) (program_parts l) -> fun_strays f = nil).
Proof. exact same_function_refuted. Qed.
Print Assumptions C24_same_function_refuted.
Example C24_example :
  is_ok (parse_src (lns ["while (a)"; "  if (b) break"])) = true /\
  is_err (parse_src (lns ["if (b) break"])) = true /\
  is_err (parse_src (lns ["fun f()"; "  continue"])) = true.
Proof. parts; vm_compute; reflexivity. Qed.

(** ** C25 *)
Theorem C25_limits : forall U oc gs ps, sane U -> valid_source gs -> tree_parts U oc gs ps ->
  Forall within_limits ps.
Proof. exact (fun U oc gs ps Sn V => limits U Sn oc gs V ps). Qed.
Print Assumptions C25_limits.
(** 255 arguments are accepted and 256 are not. *)
Definition call_with (n : nat) : list string :=
  ["f"; "("; "1"] ++ List.concat (repeat [","; "1"] n) ++ [")"; s_nl].
Example C25_example :
  is_ok (parse sample_unicode true (call_with 254)) = true /\
  is_err (parse sample_unicode true (call_with 255)) = true.
Proof. split; vm_compute; reflexivity. Qed.

(** ** C26 *)
Theorem C26_distinct_keys : forall U oc gs ps, sane U -> valid_source gs -> tree_parts U oc gs ps ->
  Forall distinct_keys ps.
Proof. exact (fun U oc gs ps Sn V => map_keys U Sn oc gs V ps). Qed.
Print Assumptions C26_distinct_keys.
(** The entries come in source order, each with the value written after it. *)
Theorem C26_source_order : forall trailing b i m r, derives trailing b Entries i (VM m) r ->
  in_order trailing b i m.
Proof. exact entries_in_order. Qed.
Print Assumptions C26_source_order.
Example C26_example :
  parse_expr_src "{b: 1, ""a"": 2}" = Done (Ok (EMap [("b", num "1"); ("a", num "2")])) /\
  is_err (parse_expr_src "{b: 1, ""b"": 2}") = true.
Proof. split; vm_compute; reflexivity. Qed.

(** ** C27 *)
Theorem C27_assigns_names : forall U oc gs ps, sane U -> valid_source gs -> tree_parts U oc gs ps ->
  Forall assigns_name ps.
Proof. exact (fun U oc gs ps Sn V => assign_names U Sn oc gs V ps). Qed.
Print Assumptions C27_assigns_names.
(** Nowhere does the grammar derive an expression that assigns to something else. *)
Theorem C27_bad_target : forall trailing b i e t r e' r', tokens_ok i ->
  derives trailing b Target i (VE e) (t :: r) -> t_type t = Equal -> ~ assignable e ->
  ~ derives trailing b Expression i (VE e') r'.
Proof. exact bad_target. Qed.
Print Assumptions C27_bad_target.
Theorem C27_bad_target_expression : forall U oc gs toks e t r, sane U -> valid_source gs ->
  scan_tokens U gs = Done (Ok toks) ->
  derives false false Target toks (VE e) (t :: r) -> t_type t = Equal -> ~ assignable e ->
  forall e', parse_expression U oc gs <> Done (Ok e').
Proof. exact (fun U oc gs toks e t r Sn V => bad_assignment_expression U Sn oc gs V toks e t r). Qed.
Print Assumptions C27_bad_target_expression.
Theorem C27_bad_target_statement : forall U oc gs toks i e t r, sane U -> valid_source gs ->
  scan_tokens U gs = Done (Ok toks) ->
  declarations false false toks i -> derives false false Target i (VE e) (t :: r) -> t_type t = Equal ->
  ~ assignable e -> ~ starts [LeftBrace; Fun] i -> forall l, parse U oc gs <> Done (Ok l).
Proof. exact (fun U oc gs toks i e t r Sn V => bad_assignment_statement U Sn oc gs V toks i e t r). Qed.
Print Assumptions C27_bad_target_statement.
Example C27_example :
  exists i e t r, declarations false false (tokens_of_source (source ["this = 1"])) i /\
    derives false false Target i (VE e) (t :: r) /\ t_type t = Equal /\ ~ assignable e /\
    ~ starts [LeftBrace; Fun] i.
Proof.
  set (l := tokens_of_source (source ["this = 1"])). vm_compute in l. subst l.
  do 4 eexists. split; [apply ds_none|]. split; [|split; [|split]].
  - apply d_target.
    let rec climb n := lazymatch n with
      | 0 => apply d_binary_top, d_unary_call; eapply d_call;
             [apply d_variable; [cbn; auto|cbn; intuition discriminate]
             |apply d_call_end; cbn; intuition discriminate]
      | S ?m => eapply d_binary; [unfold top_level; lia|climb m|apply d_tail_end; reflexivity]
      end in climb 6.
  - reflexivity.
  - cbn. congruence.
  - cbn. intuition discriminate.
Qed.

(** ** C28 *)
Theorem C28_locations : forall U oc gs ps, sane U -> valid_source gs -> tree_parts U oc gs ps ->
  exists toks, scan_tokens U gs = Done (Ok toks) /\ Forall (located toks) ps.
Proof. exact (fun U oc gs ps Sn V => locations U Sn oc gs V ps). Qed.
Print Assumptions C28_locations.
Example C28_example :
  parse_src (lns ["var a = b."; "  c"]) =
    Done (Ok [SVar "a" slot_placeholder (EGet (var_at "b" 1 9) "c" (mkLoc 1 10)) (mkLoc 1 5)]).
Proof. vm_compute. reflexivity. Qed.

(** ** C29 *)
Theorem C29_errors : forall U oc gs cs, sane U -> valid_source gs ->
  parse U oc gs = Done (Err cs) \/ parse_repl_line U oc gs = Done (Err cs) ->
  scan_tokens U gs = Done (Err cs) \/
  exists toks, scan_tokens U gs = Done (Ok toks) /\ cs <> nil /\ errors_at toks 0 cs.
Proof.
  exact (fun U oc gs cs Sn V H =>
    match H with
    | or_introl H => parse_errors U Sn oc gs V false cs H
    | or_intror H => parse_errors U Sn oc gs V true cs H
    end).
Qed.
Print Assumptions C29_errors.
Theorem C29_errors_bounded : forall toks cs, errors_at toks 0 cs -> List.length cs <= List.length toks.
Proof. exact (fun toks cs H => errors_count toks 0 cs H). Qed.
Print Assumptions C29_errors_bounded.
Theorem C29_expression_error : forall U oc gs cs, sane U -> valid_source gs ->
  parse_expression U oc gs = Done (Err cs) ->
  scan_tokens U gs = Done (Err cs) \/
  exists toks, scan_tokens U gs = Done (Ok toks) /\ (exists c, cs = [c]) /\
    (errors_at toks 0 cs \/
     oc = false /\ List.length toks = 1 /\ cs = [cause_new default_loc "Expect expression."]).
Proof. exact (fun U oc gs cs Sn V => expression_errors U Sn oc gs V cs). Qed.
Print Assumptions C29_expression_error.
Example C29_example :
  match parse_src (lns ["var = 1"; "print 2"; "x ("; "fun 3"]) with
  | Done (Err [a; b]) => (c_loc a, c_token a, c_loc b, c_token b)
      = (mkLoc 1 5, Some "=", mkLoc 4 5, Some "3")
  | _ => False
  end.
Proof. vm_compute. reflexivity. Qed.

(** ** C30 *)
Theorem C30_files_in_repl : forall U oc gs l, sane U -> valid_source gs ->
  parse U oc gs = Done (Ok l) -> parse_repl_line U oc gs = Done (Ok l).
Proof. exact file_repl. Qed.
Print Assumptions C30_files_in_repl.
(** Conversely a REPL program is a file, as it is or with a newline after it,
    if no indented block is open at its end and its last line is not blank,
    not a comment and not continued. *)
Theorem C30_repl_in_files : forall U oc gs es pre last l, sane U -> valid_source gs -> lexes U gs es ->
  source_lines es = pre ++ [last] -> open_levels (source_lines es) = nil ->
  content (body last) <> nil -> continuing (body last) = false ->
  is_comment_line (content (body last)) = false ->
  parse_repl_line U oc gs = Done (Ok l) ->
  parse U oc gs = Done (Ok l) \/ parse U oc (gs ++ [s_nl]) = Done (Ok l).
Proof. exact repl_line_file. Qed.
Print Assumptions C30_repl_in_files.
(** On tokens: one more Terminator suffices. *)
Theorem C30_repl_tokens : forall j e oc l, tokens_ok (j ++ [e]) ->
  parse_tokens (j ++ [e]) true oc = Done (Ok l) ->
  parse_tokens (j ++ [e]) false oc = Done (Ok l) \/
  forall x y, t_type x = Terminator -> t_type y = Eof -> parse_tokens (j ++ [x; y]) false oc = Done (Ok l).
Proof. exact repl_tokens. Qed.
Print Assumptions C30_repl_tokens.
(** Without the condition on open blocks it is false. *)
Theorem C30_newline_suffices_refuted :
  ~ (forall U oc gs l, sane U -> valid_source gs -> parse_repl_line U oc gs = Done (Ok l) ->
     parse U oc gs = Done (Ok l) \/ parse U oc (gs ++ [s_nl]) = Done (Ok l)).
Proof. exact newline_suffices_refuted. Qed.
Print Assumptions C30_newline_suffices_refuted.
Example C30_example :
  let gs := segment (lns ["if (a)"; "  b"; "c + 1"]) in
  let es := elements (lns ["if (a)"; "  b"; "c + 1"]) in
  valid_source gs /\ lexes sample_unicode gs es /\
  open_levels (source_lines es) = nil /\
  match rev (source_lines es) with
  | l :: _ => content (body l) <> nil /\ continuing (body l) = false /\ is_comment_line (content (body l)) = false
  | nil => False
  end /\
  is_ok (parse_repl_line sample_unicode true gs) = true /\
  is_ok (parse sample_unicode true gs) = false /\ is_ok (parse sample_unicode true (gs ++ [s_nl])) = true.
Proof.
  cbv zeta. split; [apply check_valid; vm_compute; reflexivity|]. split; [apply elements_lex|].
  parts; try (vm_compute; reflexivity). vm_compute. parts; try reflexivity. discriminate.
Qed.

(** ** C31 *)
Theorem C31_for_loops : forall trailing b i st r, derives trailing b Declaration i (VS st) r ->
  starts [For] i ->
  exists i2 i3 i5 i7 init cond inc body,
    (exists i1, token_then For i i1 /\ paren_then i1 i2) /\
    derives trailing b ForInit i2 (VO init) i3 /\
    match cond with
    | None => token_then Semicolon i3 i5
    | Some c => exists i4, derives trailing b Expression i3 (VE c) i4 /\ token_then Semicolon i4 i5
    end /\
    match inc with
    | None => token_then RightParen i5 i7
    | Some e => exists i6, derives trailing b Expression i5 (VE e) i6 /\ token_then RightParen i6 i7
    end /\
    derives trailing true Branch i7 (VS body) r /\ desugared init cond inc body st.
Proof. exact for_desugared. Qed.
Print Assumptions C31_for_loops.
(** Only a for loop has an increment. *)
Theorem C31_increment_from_for : forall U oc gs ps c b e, sane U -> valid_source gs -> tree_parts U oc gs ps ->
  In (PStmt (SWhileIncrement c b e)) ps ->
  exists toks t, scan_tokens U gs = Done (Ok toks) /\ In t toks /\ t_type t = For.
Proof. exact (fun U oc gs ps c b e Sn V => increment_from_for U Sn oc gs V ps c b e). Qed.
Print Assumptions C31_increment_from_for.
Example C31_example :
  match parse_src (lns ["for (var i = 0; ; i = i + 1) print i"; "for (; a; ) print b"]) with
  | Done (Ok [SBlock [SVar "i" _ _ _; SWhileIncrement (EBool true) (SPrint _) (EAssign _ _ _ _)];
              SWhile (EVariable "a" _ _) (SPrint _)]) => True
  | _ => False
  end.
Proof. vm_compute. exact I. Qed.

(** ** C32 *)
Theorem C32_function_kinds : forall U oc gs ps, sane U -> valid_source gs -> tree_parts U oc gs ps ->
  Forall kinds_ok ps.
Proof. exact (fun U oc gs ps Sn V => kinds U Sn oc gs V ps). Qed.
Print Assumptions C32_function_kinds.
(** Which of the kinds a member has is written in the class. *)
Theorem C32_member_kinds : forall trailing b k i ms r, derives trailing b (Methods k) i (VMs ms) r ->
  members trailing b i ms.
Proof. exact methods_members. Qed.
Print Assumptions C32_member_kinds.
Example C32_example :
  match parse_src (lns ["class A"; "  init()"; "    1"; "  class init()"; "    2"; "  go()"; "    fun() {}()"]) with
  | Done (Ok [SClass (ClassDef "A" None
      [NamedFun "init" (FunDef _ _ Initializer _); NamedFun "init" (FunDef _ _ ClassMethod _);
       NamedFun "go" (FunDef _ [SExpression (ECall (EFunction (FunDef _ _ PlainFunction _)) nil _)] Method _)] _)]) => True
  | _ => False
  end.
Proof. vm_compute. exact I. Qed.

(** ** C33 *)
Theorem C33_placeholders : forall U oc gs ps, sane U -> valid_source gs -> tree_parts U oc gs ps ->
  Forall unlocated ps.
Proof. exact (fun U oc gs ps Sn V => placeholders U Sn oc gs V ps). Qed.
Print Assumptions C33_placeholders.
Example C33_example :
  match parse_src (lns ["var a = 1"; "fun f(x)"; "  a = x"]) with
  | Done (Ok [SVar _ (SlotIndex 255) _ _; SFun (NamedFun _ (FunDef _
      [SExpression (EAssign _ (VarLoc 0 0) (EVariable _ (VarLoc 0 0) _) _)] _ _))]) => True
  | _ => False
  end.
Proof. vm_compute. exact I. Qed.

(** ** C34 *)
Theorem C34_no_terminator_statement : forall U oc gs toks i, sane U -> valid_source gs ->
  scan_tokens U gs = Done (Ok toks) -> declarations false false toks i -> starts [Terminator] i ->
  forall l, parse U oc gs <> Done (Ok l).
Proof. exact (fun U oc gs toks i Sn V => no_terminator_statement U Sn oc gs V toks i). Qed.
Print Assumptions C34_no_terminator_statement.
Theorem C34_no_terminator_line : forall U oc gs toks i, sane U -> valid_source gs ->
  scan_tokens U gs = Done (Ok toks) -> declarations true false toks i -> starts [Terminator] i ->
  forall l, parse_repl_line U oc gs <> Done (Ok l).
Proof. exact (fun U oc gs toks i Sn V => no_terminator_line U Sn oc gs V toks i). Qed.
Print Assumptions C34_no_terminator_line.
Theorem C34_no_terminator_in_block : forall trailing b k i r, tokens_ok i -> k = Outdent \/ k = RightBrace ->
  declarations trailing b i r -> starts [Terminator] r ->
  forall l e, ~ derives trailing b (Statements k) i (VSs l) e.
Proof. exact terminator_rejects_block. Qed.
Print Assumptions C34_no_terminator_in_block.
(** Conversely an accepted program is a sequence of declarations. *)
Theorem C34_statement_sequence : forall U oc gs toks l, sane U -> valid_source gs ->
  scan_tokens U gs = Done (Ok toks) -> parse U oc gs = Done (Ok l) ->
  exists eof, t_type eof = Eof /\ declarations false false toks [eof].
Proof. exact (fun U oc gs toks l Sn V => statement_sequence U Sn oc gs V toks l). Qed.
Print Assumptions C34_statement_sequence.
(** A braced block with a newline after it. *)
Example C34_example : exists i,
  declarations false false (tokens_of_source (source ["{"; "}"])) i /\ starts [Terminator] i.
Proof.
  set (l := tokens_of_source (source ["{"; "}"])). vm_compute in l. subst l.
  eexists. split.
  - eapply ds_more; [|apply ds_none]. apply d_statement. eapply d_block_statement; [eexists; split; reflexivity|].
    apply d_statements_end. eexists. split; reflexivity.
  - cbn. auto.
Qed.
(** So what one would expect to parse does not. *)
Example C34_rejected :
  is_err (parse_src (lns ["fun f() {"; "  1"; "}"])) = true /\
  is_err (parse_src (lns ["class A {"; "}"])) = true /\
  is_err (parse_src (lns ["if (a)"; "  b"; "else"; "  c"])) = true /\
  is_err (parse_src (lns ["var f = fun()"; "  1"])) = true.
Proof. parts; vm_compute; reflexivity. Qed.

(** ** C57 *)
Theorem C57_else_nearest : forall U oc gs ps, sane U -> valid_source gs -> tree_parts U oc gs ps ->
  Forall else_nearest ps.
Proof. exact (fun U oc gs ps Sn V => elses U Sn oc gs V ps). Qed.
Print Assumptions C57_else_nearest.
Example C57_example :
  match parse_src (lns ["if (a) while (b) if (c) d"; "else e"]) with
  | Done (Ok [SIf _ (SWhile _ (SIf _ _ (Some _))) None]) => True
  | _ => False
  end.
Proof. vm_compute. exact I. Qed.

(** ** C58 *)
Theorem C58_branches : forall U oc gs ps, sane U -> valid_source gs -> tree_parts U oc gs ps ->
  Forall branches_ok ps.
Proof. exact (fun U oc gs ps Sn V => branches U Sn oc gs V ps). Qed.
Print Assumptions C58_branches.
Example C58_example :
  is_err (parse_src "if (a) var b = 1") = true /\ is_ok (parse_src (lns ["if (a)"; "  var b = 1"])) = true.
Proof. split; vm_compute; reflexivity. Qed.

(** ** C59 *)
Theorem C59_superclass_is_name : forall U oc gs ps, sane U -> valid_source gs -> tree_parts U oc gs ps ->
  Forall superclass_ok ps.
Proof. exact (fun U oc gs ps Sn V => superclasses U Sn oc gs V ps). Qed.
Print Assumptions C59_superclass_is_name.
Example C59_example :
  is_ok (parse_src (lns ["class A < B"; "  go()"; "    1"])) = true /\
  is_err (parse_src (lns ["class A < b.B"; "  go()"; "    1"])) = true.
Proof. split; vm_compute; reflexivity. Qed.

(** ** C60 *)
(** Debug and release builds accept the same programs. *)
Theorem C60_same_programs : forall U gs l, sane U -> valid_source gs ->
  (parse U true gs = Done (Ok l) <-> parse U false gs = Done (Ok l)) /\
  (parse_repl_line U true gs = Done (Ok l) <-> parse_repl_line U false gs = Done (Ok l)).
Proof. exact same_programs. Qed.
Print Assumptions C60_same_programs.
Example C60_example : is_ok (parse sample_unicode true (source fibonacci)) = true /\
  is_ok (parse sample_unicode false (source fibonacci)) = true.
Proof. split; vm_compute; reflexivity. Qed.
