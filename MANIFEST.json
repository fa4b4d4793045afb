{
 "claims": [
  {
   "property": "C01",
   "status": "proved",
   "theorems": [
    "C01_divergence_is_literal",
    "C01_scan_termination",
    "C01_scanning_always_returns_refuted"
   ],
   "note": "Exact characterisation of the hang, the model outcome Diverged tied to the literal loop, and refutation of unconditional termination."
  },
  {
   "property": "C02",
   "status": "proved",
   "theorems": [
    "C02_scan_never_panics"
   ],
   "note": "Also: the fuel of the model never runs out."
  },
  {
   "property": "C03",
   "status": "proved",
   "theorems": [
    "C03_single_eof"
   ],
   "note": ""
  },
  {
   "property": "C04",
   "status": "proved",
   "theorems": [
    "C04_balanced_blocks"
   ],
   "note": ""
  },
  {
   "property": "C05",
   "status": "proved",
   "theorems": [
    "C05_token_positions"
   ],
   "note": ""
  },
  {
   "property": "C06",
   "status": "proved",
   "theorems": [
    "C06_lossless"
   ],
   "note": ""
  },
  {
   "property": "C07",
   "status": "proved",
   "theorems": [
    "C07_words"
   ],
   "note": ""
  },
  {
   "property": "C08",
   "status": "proved",
   "theorems": [
    "C08_numbers"
   ],
   "note": "Shape, maximality and value as computed by the model of str::parse::<f64> (whose correctness is C56)."
  },
  {
   "property": "C09",
   "status": "proved",
   "theorems": [
    "C09_strings",
    "C09_unterminated_string"
   ],
   "note": ""
  },
  {
   "property": "C10",
   "status": "proved",
   "theorems": [
    "C10_longest_match",
    "C10_operators"
   ],
   "note": ""
  },
  {
   "property": "C11",
   "status": "proved",
   "theorems": [
    "C11_call_parentheses"
   ],
   "note": ""
  },
  {
   "property": "C12",
   "status": "proved",
   "theorems": [
    "C12_terminators"
   ],
   "note": ""
  },
  {
   "property": "C13",
   "status": "proved",
   "theorems": [
    "C13_block_layout",
    "C13_scan_is_layout"
   ],
   "note": "The scanner equals the line-by-line specification on every source."
  },
  {
   "property": "C14",
   "status": "proved",
   "theorems": [
    "C14_blank_lines"
   ],
   "note": ""
  },
  {
   "property": "C15",
   "status": "proved",
   "theorems": [
    "C15_aligned_comment_line",
    "C15_comment_lines_ignored_refuted",
    "C15_comment_text"
   ],
   "note": "Comment text is irrelevant; aligned comment lines are silent; the general claim is refuted."
  },
  {
   "property": "C16",
   "status": "proved",
   "theorems": [
    "C16_fails_exactly"
   ],
   "note": ""
  },
  {
   "property": "C17",
   "status": "proved",
   "theorems": [
    "C17_error_positions",
    "C17_errors_point_at_offender_refuted"
   ],
   "note": "True positions proved; the naive property is refuted."
  },
  {
   "property": "C18",
   "status": "proved",
   "theorems": [
    "C18_crlf_behaves_like_lf_refuted",
    "C18_crlf_rejected"
   ],
   "note": "Rejection proved; 'CR LF behaves like LF' refuted."
  },
  {
   "property": "C19",
   "status": "proved",
   "theorems": [
    "C19_continued_lines",
    "C19_operator_continues_refuted"
   ],
   "note": "Proved for operators directly before the newline and backslashes; the version with trailing spaces is refuted."
  },
  {
   "property": "C20",
   "status": "proved",
   "theorems": [
    "C20_parse_expression_panics",
    "C20_parse_expression_returns",
    "C20_parse_repl_line_returns",
    "C20_parse_returns"
   ],
   "note": "parse and parse_repl_line never panic; parse_expression panics exactly on token-free sources in debug builds."
  },
  {
   "property": "C21",
   "status": "proved",
   "theorems": [
    "C21_grammar_unambiguous",
    "C21_parse_expression_is_grammar",
    "C21_parse_is_grammar",
    "C21_parse_repl_line_is_grammar"
   ],
   "note": "Both directions, for all three entry points."
  },
  {
   "property": "C22",
   "status": "proved",
   "theorems": [
    "C22_precedence"
   ],
   "note": ""
  },
  {
   "property": "C23",
   "status": "proved",
   "theorems": [
    "C23_accepted_well_formed",
    "C23_print_parse",
    "C23_trees_of_the_parser"
   ],
   "note": "At the level of tokens; the printer is SpecPrint.v."
  },
  {
   "property": "C24",
   "status": "proved",
   "theorems": [
    "C24_break_in_loop",
    "C24_break_in_loop_expression",
    "C24_same_function_refuted"
   ],
   "note": "Proved for enclosing loops; 'a loop of the same function' refuted."
  },
  {
   "property": "C25",
   "status": "proved",
   "theorems": [
    "C25_limits"
   ],
   "note": ""
  },
  {
   "property": "C26",
   "status": "proved",
   "theorems": [
    "C26_distinct_keys",
    "C26_source_order"
   ],
   "note": ""
  },
  {
   "property": "C27",
   "status": "proved",
   "theorems": [
    "C27_assigns_names",
    "C27_bad_target",
    "C27_bad_target_expression",
    "C27_bad_target_statement"
   ],
   "note": "The failing direction is stated for expressions anywhere, for parse_expression, and for parse on statements."
  },
  {
   "property": "C28",
   "status": "proved",
   "theorems": [
    "C28_locations",
    "C28_own_tokens"
   ],
   "note": ""
  },
  {
   "property": "C29",
   "status": "proved",
   "theorems": [
    "C29_errors",
    "C29_errors_bounded",
    "C29_expression_error"
   ],
   "note": "Strictly increasing token order, hence at most as many causes as tokens. parse_expression gives exactly one cause."
  },
  {
   "property": "C30",
   "status": "proved",
   "theorems": [
    "C30_files_in_repl",
    "C30_newline_suffices_refuted",
    "C30_repl_in_files",
    "C30_repl_tokens"
   ],
   "note": "Both directions at the level of sources and of tokens; the unconditional converse refuted."
  },
  {
   "property": "C31",
   "status": "proved",
   "theorems": [
    "C31_for_loops",
    "C31_increment_from_for"
   ],
   "note": ""
  },
  {
   "property": "C32",
   "status": "proved",
   "theorems": [
    "C32_function_kinds",
    "C32_member_kinds"
   ],
   "note": ""
  },
  {
   "property": "C33",
   "status": "proved",
   "theorems": [
    "C33_placeholders"
   ],
   "note": ""
  },
  {
   "property": "C34",
   "status": "proved",
   "theorems": [
    "C34_no_terminator_in_block",
    "C34_no_terminator_line",
    "C34_no_terminator_statement",
    "C34_statement_sequence"
   ],
   "note": "Programs, REPL lines and blocks; the rejected natural programs are in C34_rejected."
  },
  {
   "property": "C35",
   "status": "proved",
   "theorems": [
    "C35_context_restored"
   ],
   "note": ""
  },
  {
   "property": "C36",
   "status": "proved",
   "theorems": [
    "C36_only_slots_change"
   ],
   "note": ""
  },
  {
   "property": "C37",
   "status": "proved",
   "theorems": [
    "C37_innermost_binding"
   ],
   "note": ""
  },
  {
   "property": "C38",
   "status": "proved",
   "theorems": [
    "C38_distinct_slots",
    "C38_slots_always_distinct_refuted"
   ],
   "note": "Distinctness up to 256 names proved; unconditional distinctness refuted by a 257-name block."
  },
  {
   "property": "C39",
   "status": "proved",
   "theorems": [
    "C39_one_table",
    "C39_table_after",
    "C39_table_grows"
   ],
   "note": ""
  },
  {
   "property": "C40",
   "status": "proved",
   "theorems": [
    "C40_return_errors",
    "C40_returns_checked"
   ],
   "note": ""
  },
  {
   "property": "C41",
   "status": "proved",
   "theorems": [
    "C41_this_and_super_checked",
    "C41_this_and_super_errors"
   ],
   "note": ""
  },
  {
   "property": "C42",
   "status": "proved",
   "theorems": [
    "C42_global_redeclaration",
    "C42_no_local_redeclaration",
    "C42_redeclaration_errors"
   ],
   "note": ""
  },
  {
   "property": "C43",
   "status": "proved",
   "theorems": [
    "C43_context_after",
    "C43_context_at_start",
    "C43_failed_line_has_no_effect_refuted",
    "C43_own_initializer",
    "C43_poisoned_global"
   ],
   "note": "Rule, context of a session and poisoning proved; 'a failed line has no effect' refuted."
  },
  {
   "property": "C44",
   "status": "proved",
   "theorems": [
    "C44_accepted_nesting",
    "C44_nested_blocks_panic",
    "C44_no_panic"
   ],
   "note": "Both directions; nested blocks panic exactly beyond the limit."
  },
  {
   "property": "C45",
   "status": "proved",
   "theorems": [
    "C45_causes_are_justified",
    "C45_statement_by_statement"
   ],
   "note": "Equivalence with one call per statement, and every cause is justified by a broken rule."
  },
  {
   "property": "C46",
   "status": "proved",
   "theorems": [
    "C46_in_pieces"
   ],
   "note": ""
  },
  {
   "property": "C47",
   "status": "proved",
   "theorems": [
    "C47_no_self_inheritance",
    "C47_self_inheritance_errors"
   ],
   "note": ""
  },
  {
   "property": "C48",
   "status": "proved",
   "theorems": [
    "C48_accepts_exactly",
    "C48_unique"
   ],
   "note": "Exact within the size limits of scopes; slots are unique."
  },
  {
   "property": "C49",
   "status": "proved",
   "theorems": [
    "C49_file",
    "C49_no_file",
    "C49_status_0",
    "C49_status_65",
    "C49_streams"
   ],
   "note": "All four endings characterised; the texts of stdout and stderr given."
  },
  {
   "property": "C50",
   "status": "proved",
   "theorems": [
    "C50_end_of_input",
    "C50_exits_at_end_of_input_refuted",
    "C50_session_ends"
   ],
   "note": "Why a session ends, and what it prints at end of input for ever; 'exits at end of input' refuted."
  },
  {
   "property": "C51",
   "status": "proved",
   "theorems": [
    "C51_global_scope",
    "C51_history_is_one_program",
    "C51_line",
    "C51_session_history"
   ],
   "note": "What every line does; the session is one history of resolver calls, equal to one program."
  },
  {
   "property": "C52",
   "status": "proved",
   "theorems": [
    "C52_error_is_its_causes",
    "C52_error_line",
    "C52_error_line_faithful_refuted",
    "C52_error_line_position",
    "C52_error_paragraph",
    "C52_error_text"
   ],
   "note": "Decodability of both renderings; unconditional decodability on the command line refuted."
  },
  {
   "property": "C53",
   "status": "proved",
   "theorems": [
    "C53_parse_string",
    "C53_serialization_injective",
    "C53_value_determines_tree"
   ],
   "note": ""
  },
  {
   "property": "C54",
   "status": "proved",
   "theorems": [
    "C54_page_faithful_refuted",
    "C54_page_shows_errors",
    "C54_page_up_to_booleans"
   ],
   "note": "Exactly up to booleans; faithfulness refuted."
  },
  {
   "property": "C55",
   "status": "proved",
   "theorems": [
    "C55_lexing_unique"
   ],
   "note": ""
  },
  {
   "property": "C56",
   "status": "proved",
   "theorems": [
    "C56_number_values",
    "C56_rounding_unique"
   ],
   "note": "The model of str::parse::<f64> satisfies an independent integer statement of round-to-nearest-even; that Rust's implementation does is documented by Rust and trusted."
  },
  {
   "property": "C57",
   "status": "proved",
   "theorems": [
    "C57_else_nearest"
   ],
   "note": ""
  },
  {
   "property": "C58",
   "status": "proved",
   "theorems": [
    "C58_branches"
   ],
   "note": ""
  },
  {
   "property": "C59",
   "status": "proved",
   "theorems": [
    "C59_superclass_is_name"
   ],
   "note": ""
  },
  {
   "property": "C60",
   "status": "proved",
   "theorems": [
    "C60_same_programs"
   ],
   "note": ""
  },
  {
   "property": "C61",
   "status": "proved",
   "theorems": [
    "C61_output_determines_tree"
   ],
   "note": "Assumptions on the texts produced by Rust's Debug are hypotheses, met by the sample formats."
  },
  {
   "property": "C62",
   "status": "proved",
   "theorems": [
    "C62_parse_errors",
    "C62_parse_expression_errors",
    "C62_parse_repl_line_errors",
    "C62_table_deterministic"
   ],
   "note": "The table is SpecReject.v; both directions for all three entry points, and the table is deterministic."
  },
  {
   "property": "C63",
   "status": "proved",
   "theorems": [
    "C63_file",
    "C63_javascript",
    "C63_repl",
    "C63_same_results"
   ],
   "note": "parse_expression on a token-free source differs: it panics in debug builds (C20)."
  },
  {
   "property": "C64",
   "status": "proved",
   "theorems": [
    "C64_errors_independent_refuted",
    "C64_first_error"
   ],
   "note": "Resumption point proved; independence of errors refuted by a two-line program."
  },
  {
   "property": "C65",
   "status": "proved",
   "theorems": [
    "C65_resolve_errors",
    "C65_session_errors"
   ],
   "note": "SpecCheck.v; both outcomes and the panic, for single calls and sessions."
  },
  {
   "property": "C66",
   "status": "proved",
   "theorems": [
    "C66_session_globals"
   ],
   "note": ""
  },
  {
   "property": "C67",
   "status": "proved",
   "theorems": [
    "C67_file"
   ],
   "note": "SpecWhole.v uses no function of the scanner, parser, resolver or printer models."
  },
  {
   "property": "C68",
   "status": "proved",
   "theorems": [
    "C68_javascript",
    "C68_same_verdict"
   ],
   "note": ""
  },
  {
   "property": "C69",
   "status": "proved",
   "theorems": [
    "C69_next_line",
    "C69_session"
   ],
   "note": ""
  },
  {
   "property": "C70",
   "status": "proved",
   "theorems": [
    "C70_debug",
    "C70_javascript",
    "C70_on_change",
    "C70_page"
   ],
   "note": "SpecData.v shows data in general; the tree-to-data map names each constructor once. C67-C69 use these texts."
  },
  {
   "property": "C71",
   "status": "proved",
   "theorems": [
    "C71_key",
    "C71_string"
   ],
   "note": "Both directions: the texts are characterised, not only met."
  },
  {
   "property": "C72",
   "status": "proved",
   "theorems": [
    "C72_parse_messages",
    "C72_resolve_messages",
    "C72_scan_messages",
    "C72_session_messages"
   ],
   "note": "parse_expression on token-free sources is excluded (C20)."
  },
  {
   "property": "C73",
   "status": "proved",
   "theorems": [
    "C73_one_error",
    "C73_page_text",
    "C73_standard_error_refuted",
    "C73_thrown_text"
   ],
   "note": "Assumes that Rust's quoting can be undone and that a newline is in no cluster but LF and CR LF; unrestricted decodability of standard error refuted by two programs."
  },
  {
   "property": "C74",
   "status": "proved",
   "theorems": [
    "C74_parse",
    "C74_parse_expression",
    "C74_parse_repl_line",
    "C74_resolve",
    "C74_session",
    "C74_words"
   ],
   "note": "same_result, same_program: equality up to positions (SpecScan.v, SpecPlace.v)."
  },
  {
   "property": "C75",
   "status": "proved",
   "theorems": [
    "C75_aligned_comment_line",
    "C75_blank_lines",
    "C75_comment_text",
    "C75_spaces",
    "C75_spaces_ignored_refuted"
   ],
   "note": "Proved with the two exceptions named; the unrestricted claim refuted."
  },
  {
   "property": "C76",
   "status": "proved",
   "theorems": [
    "C76_injective",
    "C76_parse",
    "C76_parse_repl_line"
   ],
   "note": "The printer is SpecWrite.v; assumes that the oracle is right about ASCII letters and digits."
  },
  {
   "property": "C77",
   "status": "proved",
   "theorems": [
    "C77_flat",
    "C77_needed",
    "C77_only"
   ],
   "note": "Expression statements that start with an empty map are excluded, which is shown to be necessary; same assumption on the oracle as in C76."
  },
  {
   "property": "C78",
   "status": "proved",
   "theorems": [
    "C78_any_end_refuted",
    "C78_any_start_refuted",
    "C78_concatenation"
   ],
   "note": "Covers accepted, rejected and hanging second parts; both hypotheses shown to be needed by refuting theorems."
  },
  {
   "property": "C79",
   "status": "proved",
   "theorems": [
    "C79_any_names_refuted",
    "C79_renaming",
    "C79_session"
   ],
   "note": "Lockstep of the resolver with itself; the injectivity is shown to be needed."
  },
  {
   "property": "C80",
   "status": "proved",
   "theorems": [
    "C80_any_slots",
    "C80_idempotent",
    "C80_session"
   ],
   "note": "For all states; idempotence uses C36."
  },
  {
   "property": "C81",
   "status": "proved",
   "theorems": [
    "C81_accepted_again",
    "C81_after_errors_refuted"
   ],
   "note": "The hypotheses on sizes are those of C48; the version with errors in between is refuted."
  },
  {
   "property": "C82",
   "status": "proved",
   "theorems": [
    "C82_expression",
    "C82_parse_errors",
    "C82_resolve_errors",
    "C82_scan_errors",
    "C82_tokens",
    "C82_tree",
    "C82_tree_of_tokens"
   ],
   "note": "The size of trees is SpecSize.v; by induction over the grammar and over the lines of the layout."
  },
  {
   "property": "C83",
   "status": "proved",
   "theorems": [
    "C83_accepted",
    "C83_bounded_recursion_refuted",
    "C83_recursion"
   ],
   "note": "Native stack depth itself is not modelled; the recursion depth is the fuel of the knot in Parser.v."
  },
  {
   "property": "C84",
   "status": "proved",
   "theorems": [
    "C84_init_refuted",
    "C84_parse",
    "C84_parse_expression",
    "C84_parse_repl_line",
    "C84_resolve",
    "C84_text"
   ],
   "note": "Assumes for the last part that letters can continue a name (alphabetic implies alphanumeric); the exception for init is shown to be needed."
  },
  {
   "property": "C85",
   "status": "proved",
   "theorems": [
    "C85_parse",
    "C85_parse_repl_line",
    "C85_resolve"
   ],
   "note": "No restriction on the source; the initial part is not unique (blank lines and comments may belong to either side)."
  },
  {
   "property": "C86",
   "status": "proved",
   "theorems": [
    "C86_enter",
    "C86_functions",
    "C86_line",
    "C86_not_everything",
    "C86_typed"
   ],
   "note": "The converse leaves out variables in bodies and blocks and the initialiser of a for: the printer ends variables with a newline."
  },
  {
   "property": "C87",
   "status": "proved",
   "theorems": [
    "C87_last_refuted",
    "C87_repl_refuted",
    "C87_stable"
   ],
   "note": "parse only; for parse_repl_line a counterexample is given (C87_repl_refuted), as for the stronger claim that the last statement stays (C87_last_refuted)."
  },
  {
   "property": "C88",
   "status": "proved",
   "theorems": [
    "C88_end_of_input",
    "C88_exits",
    "C88_file",
    "C88_file_fails",
    "C88_main",
    "C88_session",
    "C88_session_fails",
    "C88_status_0",
    "C88_status_65"
   ],
   "note": "The panic of a failed print is part of the model (std documents it); the text of the panic message is not. Streams that are closed altogether count as taking everything, as in std."
  },
  {
   "property": "C89",
   "status": "proved",
   "theorems": [
    "C89_any_lines_refuted",
    "C89_typed"
   ],
   "note": "The condition on how pieces start and end is that of C78; C89_any_lines_refuted shows that it is needed (two lines that are one map in a file)."
  },
  {
   "property": "C90",
   "status": "proved",
   "theorems": [
    "C90_lines",
    "C90_open_string_refuted"
   ],
   "note": "For a string left open C90_open_string_refuted gives a counterexample."
  },
  {
   "property": "C91",
   "status": "proved",
   "theorems": [
    "C91_parse",
    "C91_run",
    "C91_scan",
    "C91_session"
   ],
   "note": "No restriction."
  },
  {
   "property": "C92",
   "status": "proved",
   "theorems": [
    "C92_one_line",
    "C92_one_way",
    "C92_quoted_text",
    "C92_read_back"
   ],
   "note": "Rust's Debug for str is modelled after the standard library; the tables of unprintable characters and grapheme extenders are a parameter."
  },
  {
   "property": "C93",
   "status": "proved",
   "theorems": [
    "C93_found",
    "C93_js_numbers",
    "C93_js_text",
    "C93_one_text",
    "C93_paste_back",
    "C93_paste_back_refuted",
    "C93_rust_numbers",
    "C93_rust_text",
    "C93_shortest",
    "C93_zero_and_infinity"
   ],
   "note": "The digits are found by a reference search that is proved to give the shortest; the algorithms of the libraries are not modelled, only what they are specified to give. The theorems on printing hold for any search that reads back. C93_paste_back_refuted: 1e16 is printed in a form that is no literal."
  },
  {
   "property": "C94",
   "status": "proved",
   "theorems": [
    "C94_error_paragraph",
    "C94_output_determines_tree",
    "C94_page",
    "C94_thrown_text"
   ],
   "note": "C61, C73, C54 and C52 with the formats of C92 and C93 put in."
  },
  {
   "property": "C95",
   "status": "proved",
   "theorems": [
    "C95_errors_stay",
    "C95_last_error_refuted",
    "C95_never_repaired",
    "C95_repl_errors_stay",
    "C95_scan_errors_stay"
   ],
   "note": "Two errors of either kind are enough for the general claim. The last error is a counterexample of each kind (C95_last_error_refuted)."
  },
  {
   "property": "C96",
   "status": "proved",
   "theorems": [
    "C96_after_eof",
    "C96_calls_end",
    "C96_empty_vector",
    "C96_first_parse",
    "C96_missing_eof",
    "C96_no_eof",
    "C96_panics",
    "C96_parse_then"
   ],
   "note": "No restriction on the tokens. The depth of the native stack is not modelled. C96_panic_examples shows that each reason for a panic occurs."
  },
  {
   "property": "C97",
   "status": "proved",
   "theorems": [
    "C97_open_blocks",
    "C97_same_again_refuted",
    "C97_scan_again",
    "C97_scans_end"
   ],
   "note": "C97_same_again_refuted is the counterexample to a second scan repeating the first."
  },
  {
   "property": "C98",
   "status": "proved",
   "theorems": [
    "C98_literals",
    "C98_parse",
    "C98_parse_tokens",
    "C98_string_keys_refuted"
   ],
   "note": "No restriction on the tokens. keys_related concerns only tokens in front of a colon; C98_string_keys_refuted shows that it is needed."
  },
  {
   "property": "C99",
   "status": "proved",
   "theorems": [
    "C99_any_names_refuted",
    "C99_new",
    "C99_resolve",
    "C99_resolver",
    "C99_run"
   ],
   "note": "The relation of names covers variables, properties and methods together, as tokens do not tell them apart. C99_any_names_refuted: merging two names changes the verdict."
  },
  {
   "property": "C100",
   "status": "proved",
   "theorems": [
    "C100_errors",
    "C100_expressions",
    "C100_identity_refuted",
    "C100_programs",
    "C100_reflexive",
    "C100_reflexive_refuted",
    "C100_resolve_refuted",
    "C100_small_maps",
    "C100_symmetric",
    "C100_token_values",
    "C100_tokens",
    "C100_transitive",
    "C100_trees"
   ],
   "note": "The derived PartialEq instances are modelled field by field; for IndexMap the documented meaning (same length, every key of the one found in the other with an equal value, order ignored) is taken. C100_identity_refuted, C100_reflexive_refuted and C100_resolve_refuted mark the limits."
  },
  {
   "property": "C101",
   "status": "proved",
   "theorems": [
    "C101_exact",
    "C101_injective",
    "C101_only",
    "C101_order",
    "C101_text",
    "C101_text_repl"
   ],
   "note": "indentable (at most 65535 indentations open at once in the written text) is a hypothesis of the direction from trees to texts only."
  },
  {
   "property": "C102",
   "status": "proved",
   "theorems": [
    "C102_anywhere",
    "C102_resolve",
    "C102_session",
    "C102_without_returns_refuted"
   ],
   "note": "C102_resolve (a fresh resolver), C102_session (any state), C102_anywhere (up to positions). C102_without_returns_refuted: whether nil is returned cannot be left out of the outline."
  },
  {
   "property": "C103",
   "status": "proved",
   "theorems": [
    "C103_errors_in_order",
    "C103_own_statement"
   ],
   "note": "C103_errors_in_order (all errors of a call), C103_own_statement (the error of each statement, with the locations of C28). Rests on C28_own_tokens."
  },
  {
   "property": "C104",
   "status": "proved",
   "theorems": [
    "C104_any_order",
    "C104_every_order_refuted",
    "C104_files",
    "C104_globals",
    "C104_together"
   ],
   "note": "C104_together, C104_any_order, C104_globals, C104_files; C104_every_order_refuted shows that the condition on initializers is needed. within_bounds is the condition of C48: at most 65535 names in every scope."
  },
  {
   "property": "C105",
   "status": "proved",
   "theorems": [
    "C105_any_names_refuted",
    "C105_equivalence",
    "C105_files",
    "C105_resolve",
    "C105_session",
    "C105_slots_tell_all_refuted"
   ],
   "note": "C105_resolve for programs with the same positions, C105_session with any positions and in every state of a session, C105_files for files; C105_equivalence: the relation is an equivalence; C105_any_names_refuted shows that capture must be excluded, C105_slots_tell_all_refuted that the converse fails. C79 is about renamings of all names by one injective map; here each local declaration may be renamed by itself."
  },
  {
   "property": "C106",
   "status": "proved",
   "theorems": [
    "C106_all_rounds",
    "C106_errors",
    "C106_expression",
    "C106_one_ahead_refuted",
    "C106_results",
    "C106_rounds",
    "C106_statement"
   ],
   "note": "C106_expression and C106_statement for one call, C106_rounds, C106_results and C106_errors for the top level, C106_all_rounds that every run of the top level is a sequence of such rounds; C106_one_ahead_refuted shows that two tokens are needed. C95 is about texts and keywords; here nothing is asked of the tokens."
  },
  {
   "property": "C107",
   "status": "proved",
   "theorems": [
    "C107_all_steps",
    "C107_kept",
    "C107_one_ahead_refuted",
    "C107_results",
    "C107_steps"
   ],
   "note": "C107_steps for the rounds of the loop, C107_all_steps that every finished scan is a number of rounds to the end of the text and then one Outdent for each open block and Eof, C107_kept that what was found stays, C107_results for the whole scan; C107_one_ahead_refuted shows that two clusters are needed."
  },
  {
   "property": "C108",
   "status": "proved",
   "theorems": [
    "C108_files",
    "C108_lines",
    "C108_rejected"
   ],
   "note": "C108_files and C108_lines join C106 and C107 for the two entry points; C108_rejected is the case of an error."
  }
 ]
}