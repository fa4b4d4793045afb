{"id": "C01", "title": "Scanning terminates exactly on consistently dedented sources", "statement": "Scanner::new(s).scan_tokens() returns (Ok or Err) for a source s unless some line is dedented to a width that lies strictly between two open indentation levels (below the innermost, above another one still open, equal to none); on such a source the call never returns. In particular the naive property 'scanning always returns' is false.", "quantifier": "every source text, of any length and nesting", "why_tests_cant": "A hang depends on the whole history of indentation widths; no finite set of inputs shows termination, and a test of the bad input would simply not finish.", "anchors": ["src/scanner.rs: Scanner::scan_tokens", "src/scanner.rs: Scanner::bol_indentation_tokens"]}
{"id": "C02", "title": "Scanning never panics", "statement": "No source text makes scan_tokens panic: every slice of the source is taken between valid character boundaries and every number lexeme is accepted by f64 parsing.", "quantifier": "every source text and every division of it into grapheme clusters", "why_tests_cant": "Slice bounds and the f64 parse depend on every possible sequence of multi-byte clusters; tests sample a few.", "anchors": ["src/scanner.rs: Scanner::add_token", "src/scanner.rs: Scanner::scan_string", "src/scanner.rs: Scanner::scan_number", "src/scanner.rs: Scanner::scan_identifier"]}
{"id": "C03", "title": "A scanned token stream ends in exactly one end-of-file token", "statement": "When scan_tokens returns Ok(tokens), the last token is Eof with an empty lexeme and no other token is Eof.", "quantifier": "every source text", "why_tests_cant": "Must hold whatever the source contains; the parser's termination depends on it.", "anchors": ["src/scanner.rs: Scanner::scan_tokens"]}
{"id": "C04", "title": "Indents and outdents are balanced", "statement": "In every Ok token stream the Indent and Outdent tokens form a balanced bracket sequence: no prefix has more Outdents than Indents and the totals are equal.", "quantifier": "every source text", "why_tests_cant": "It is an invariant over arbitrarily deep and long histories of indentation changes.", "anchors": ["src/scanner.rs: Scanner::bol_indentation_tokens", "src/scanner.rs: Scanner::close_all_blocks"]}
{"id": "C05", "title": "Token positions are the true source positions", "statement": "For every token that stands for source text, its line is 1 plus the number of newlines before its first cluster and its column is 1 plus the number of clusters between the last newline and it (saturating at u32::MAX and u16::MAX), also after multi-line strings, comments and line continuations; Indent and Outdent tokens carry the position of the first lexical element (token or comment) of the line they open or close, those at the end of the file the end position, and a Terminator the position of its newline.", "quantifier": "every source text and every token", "why_tests_cant": "Positions accumulate over the whole prefix; line bookkeeping is in four different places.", "anchors": ["src/scanner.rs: Scanner::advance", "src/scanner.rs: Scanner::reset_line", "src/scanner.rs: Scanner::scan_string", "src/scanner.rs: Scanner::add_token"]}
{"id": "C06", "title": "Scanning loses and invents nothing", "statement": "When scan_tokens returns Ok, the source is the concatenation, in order, of the lexemes of the non-layout tokens and of trivia pieces, each trivia piece being a space, a carriage return, a newline, a comment running to the end of its line, or a backslash line continuation; each token's lexeme has the lexical shape of its kind.", "quantifier": "every source text", "why_tests_cant": "Losslessness is a statement about every byte of every input.", "anchors": ["src/scanner.rs: Scanner::scan_token"]}
{"id": "C07", "title": "Identifiers and keywords are recognised by maximal munch", "statement": "An identifier-like token starts with an alphabetic or underscore cluster, extends over all following alphanumeric or underscore clusters and no further, and it is a keyword token exactly when its whole text is one of the eighteen reserved words (then of that keyword's kind).", "quantifier": "every source text and every classification of code points as alphabetic/alphanumeric", "why_tests_cant": "Needs all words and all following characters, not examples.", "anchors": ["src/scanner.rs: Scanner::scan_identifier", "src/scanner.rs: KEYWORDS", "src/scanner.rs: is_alphabetic", "src/scanner.rs: is_alphanumeric"]}
{"id": "C08", "title": "Number tokens have the decimal shape and the correctly parsed value", "statement": "The lexeme of a Number token is digits, optionally followed by a dot and at least one digit, it is maximal, and its float_literal is the value of that text rounded to the nearest f64.", "quantifier": "every source text and every number literal of any length", "why_tests_cant": "Infinitely many literals; rounding and the dot lookahead interact with what follows.", "anchors": ["src/scanner.rs: Scanner::scan_number", "src/scanner.rs: Scanner::add_number_literal_token"]}
{"id": "C09", "title": "String tokens contain exactly the text between the quotes", "statement": "A String token's string_literal is exactly the source text between its opening quote and the next quote character (no escapes, newlines included), and an opening quote with no later quote is always reported as an error.", "quantifier": "every source text", "why_tests_cant": "Must hold for arbitrary contents, including newlines, comment markers and multi-byte clusters.", "anchors": ["src/scanner.rs: Scanner::scan_string", "src/scanner.rs: Scanner::add_string_literal_token"]}
{"id": "C10", "title": "Operators are scanned by longest match", "statement": "`==`, `!=`, `<=`, `>=` are always one token and `//` always begins a comment; single `=`, `!`, `<`, `>`, `/` tokens are produced only when the next cluster does not extend them.", "quantifier": "every source text", "why_tests_cant": "All contexts and neighbours.", "anchors": ["src/scanner.rs: Scanner::scan_token", "src/scanner.rs: Scanner::matches"]}
{"id": "C11", "title": "An open parenthesis is a call parenthesis exactly when it abuts the preceding text", "statement": "An open parenthesis becomes LeftParenAbutting exactly when something precedes it and the preceding lexical element is not whitespace (space, carriage return, newline); a backslash line continuation counts as non-whitespace although it ends in a newline.", "quantifier": "every source text and every parenthesis in it", "why_tests_cant": "Depends on the element before, whatever it is.", "anchors": ["src/scanner.rs: Scanner::scan_token", "src/scanner.rs: Scanner::is_abutting"]}
{"id": "C12", "title": "Newlines terminate statements exactly as the line rule says", "statement": "A newline yields a Terminator token exactly when its line is not blank, does not begin with a comment, and the element directly before the newline is not one of the continuing tokens ( { [ : , . - + * / < <= > >=; the end of file never yields one.", "quantifier": "every source text and every newline", "why_tests_cant": "Depends on the preceding line's whole contents.", "anchors": ["src/scanner.rs: Scanner::scan_token", "src/scanner.rs: Scanner::reset_line"]}
{"id": "C13", "title": "Block layout follows the indentation rule", "statement": "The whole Ok token stream is the one obtained by a line-by-line layout rule from the lexical elements of the source: the first element of a non-blank line opens a block when it is indented more than the innermost open level (unless the line continues the previous one), closes every level deeper than it, and does nothing when equal.", "quantifier": "every source text", "why_tests_cant": "An equivalence between two programs over all inputs.", "anchors": ["src/scanner.rs: Scanner::bol_indentation_tokens", "src/scanner.rs: Scanner::scan_token", "src/scanner.rs: Scanner::close_all_blocks"]}
{"id": "C14", "title": "Blank lines do not change the token stream", "statement": "Inserting or removing lines that contain only spaces, at a line start, changes neither the kinds, lexemes and literals of the tokens nor whether scanning succeeds.", "quantifier": "every source text, every line boundary, every number of blank lines and spaces", "why_tests_cant": "All positions in all sources, including inside continued lines.", "anchors": ["src/scanner.rs: Scanner::reset_line", "src/scanner.rs: Scanner::scan_token"]}
{"id": "C15", "title": "Comment text never matters", "statement": "Replacing the text of a comment (up to its newline) by any other text without newline changes neither kinds, lexemes nor literals of the tokens, and a comment-only line at the innermost open indentation adds no tokens. A comment-only line at another indentation does change the token stream (the naive 'comments are ignored' is false).", "quantifier": "every source text, every comment and every replacement", "why_tests_cant": "Quantifies over pairs of sources.", "anchors": ["src/scanner.rs: Scanner::advance_to_eol", "src/scanner.rs: Scanner::scan_token"]}
{"id": "C16", "title": "Scanning fails exactly on illegal text", "statement": "When scan_tokens returns, it returns Err exactly when the source contains, outside strings and comments, a tab, a backslash not followed by optional spaces and a newline, a cluster that starts no token, an unterminated string, or a dedent below every open level to a non-zero width; one cause per such place, in source order.", "quantifier": "every source text", "why_tests_cant": "Both directions range over all inputs.", "anchors": ["src/scanner.rs: Scanner::scan_token", "src/scanner.rs: Scanner::error"]}
{"id": "C17", "title": "Scan errors point at the offending text", "statement": "A scan error's line is that of the offending cluster and its column is that of the cluster for stray backslashes, and one past it for tabs, unexpected clusters and mismatched dedents (so the naive 'errors point at the offending cluster' is false).", "quantifier": "every source text with an error", "why_tests_cant": "Positions depend on the whole prefix.", "anchors": ["src/scanner.rs: Scanner::scan_token", "src/scanner.rs: Scanner::bol_indentation_tokens"]}
{"id": "C18", "title": "Windows line endings are rejected", "statement": "A carriage return followed by a newline is one grapheme cluster, so every source that contains CR LF outside strings and comments is rejected with an error; the intended property 'CR LF behaves like LF' is false.", "quantifier": "every source text with a CR LF", "why_tests_cant": "Needs all sources, and the segmentation fact that CR LF is one cluster.", "anchors": ["src/scanner.rs: Scanner::scan_token", "src/scanner.rs: Scanner::matches"]}
{"id": "C19", "title": "Lines are continued after a trailing operator", "statement": "When a line ends in a continuing token or a backslash directly before the newline, no Terminator is produced for it and the next non-blank line opens no block whatever its indentation. A space or comment between the operator and the newline defeats this for operators (the naive property is false).", "quantifier": "every source text and every continued line", "why_tests_cant": "All operators, all following blank lines and widths.", "anchors": ["src/scanner.rs: Scanner::reset_line", "src/scanner.rs: Scanner::bol_indentation_tokens"]}
{"id": "C20", "title": "Parsing always terminates without panic", "statement": "parse and parse_repl_line return Ok or Err, never panic and never loop, for every source whose scan returns, in debug and release builds; parse_expression does too except that in a build with overflow checks it panics exactly on sources without any token.", "quantifier": "every source text, both build modes", "why_tests_cant": "Termination and absence of panics over all token streams; loops and recursion are unbounded.", "anchors": ["src/parser.rs: Parser::parse", "src/parser.rs: Parser::parse_expression", "src/parser.rs: Parser::previous", "src/parser.rs: Parser::synchronize", "src/parser.rs: Parser::primary"]}
{"id": "C21", "title": "Parsing is sound and complete for the language grammar", "statement": "When parse returns Ok(statements), the token stream is derived from the statements by the language's grammar: every token is used exactly once, in order, and the tree is the one the derivation builds. Conversely parse returns Ok(statements) for every token stream that the grammar derives from them, and the grammar is unambiguous.", "quantifier": "every source text", "why_tests_cant": "Unbounded programs; a wrong tree for one unusual nesting is invisible to samples.", "anchors": ["src/parser.rs: Parser::declaration", "src/parser.rs: Parser::statement", "src/parser.rs: Parser::expression"]}
{"id": "C22", "title": "Operator precedence and associativity", "statement": "In every Ok tree, binary and logical operators nest by the precedence or < and < ==,!= < comparison < +,- < *,/ < unary < call, the binary ones left-associatively and assignment right-associatively, and only explicit grouping or brackets override it.", "quantifier": "every source text", "why_tests_cant": "All operator combinations at all depths.", "anchors": ["src/parser.rs: Parser::or", "src/parser.rs: Parser::and", "src/parser.rs: Parser::equality", "src/parser.rs: Parser::comparison", "src/parser.rs: Parser::addition", "src/parser.rs: Parser::multiplication", "src/parser.rs: Parser::unary"]}
{"id": "C23", "title": "Printing then parsing gives back the tree", "statement": "Every well-formed tree has a canonical token rendering (braced blocks and maps, parenthesised calls, string keys) that the parser accepts and turns back into exactly that tree, source locations included; and every accepted program's tree is well-formed, so the trees the parser can return are exactly the well-formed ones.", "quantifier": "every well-formed syntax tree", "why_tests_cant": "A round-trip law over all trees; gives the accept direction that soundness lacks.", "anchors": ["src/parser.rs: Parser::parse"]}
{"id": "C24", "title": "Accepted break and continue statements are inside a loop", "statement": "In every Ok tree each break and continue lies inside the body of some while or for loop. It need not be a loop of the same function: a break in a function declared inside a loop body is accepted (the naive per-function property is false).", "quantifier": "every source text", "why_tests_cant": "The loop counter must be right along every path, including error recovery.", "anchors": ["src/parser.rs: Parser::finish_break_statement", "src/parser.rs: Parser::finish_continue_statement", "src/parser.rs: Parser::loop_body_statement"]}
{"id": "C25", "title": "At most 255 parameters and arguments", "statement": "In every Ok tree every function has at most 255 parameters and every call at most 255 arguments.", "quantifier": "every source text", "why_tests_cant": "Every function and call in every program.", "anchors": ["src/parser.rs: Parser::function_definition", "src/parser.rs: Parser::finish_call", "src/parser.rs: Parser::finish_call_without_parens"]}
{"id": "C26", "title": "Map literals have distinct keys in source order", "statement": "In every Ok tree the keys of each map literal are pairwise distinct and appear in source order with their own values.", "quantifier": "every source text", "why_tests_cant": "Every map literal of any size.", "anchors": ["src/parser.rs: Parser::literal_map", "src/ast.rs: Map::insert"]}
{"id": "C27", "title": "Only assignable expressions are assigned to", "statement": "In every Ok tree an assignment's target is a variable other than `this`, a property or an index expression, and where any other expression is followed by `=` no expression can be derived, so that parse_expression fails on it and parse fails on a statement that starts with it.", "quantifier": "every source text", "why_tests_cant": "Every expression shape before every `=`.", "anchors": ["src/parser.rs: Parser::assignment"]}
{"id": "C28", "title": "Tree locations are token locations", "statement": "Every source location in an Ok tree is the location of a token of the stream (for variables, parameters, classes and functions: of the token that spells the name or the fun keyword).", "quantifier": "every source text", "why_tests_cant": "Every node of every tree.", "anchors": ["src/parser.rs: Parser::peek_source_loc", "src/parser.rs: Parser::matches", "src/parser.rs: Parser::consume_identifier"]}
{"id": "C29", "title": "Parse errors are non-empty, ordered and point at real tokens", "statement": "When parse returns Err it carries at least one cause; each cause names a token of the stream with that token's location (and, unless about an assignment, its text), and the causes' tokens are in strictly increasing stream order, so there are at most as many causes as tokens.", "quantifier": "every source text", "why_tests_cant": "Error recovery must make progress from every failure point.", "anchors": ["src/parser.rs: Parser::parse", "src/parser.rs: Parser::synchronize", "src/parser.rs: Parser::error_from_last", "src/parser.rs: Parser::error_from_peek"]}
{"id": "C30", "title": "The REPL parser accepts a superset with the same trees", "statement": "Whenever parse returns Ok(t) for a source, parse_repl_line returns Ok(t) too. Conversely, when parse_repl_line returns Ok(t), parse returns Ok(t) for the source itself or for the source with a newline after it, provided no indented block is open at its end and its last line has content, is no comment and is not continued; without these conditions this is false ('  1' is accepted by the REPL only).", "quantifier": "every source text", "why_tests_cant": "Relates two parsers on all inputs.", "anchors": ["src/parser.rs: parse_repl_line", "src/parser.rs: Parser::with_trailing_expression", "src/parser.rs: Parser::expression_statement"]}
{"id": "C31", "title": "For loops desugar to while loops in their own scope", "statement": "A for loop becomes while or while-with-increment with condition true when omitted, wrapped in a block with its initializer exactly when there is one; no other construct produces a while-with-increment.", "quantifier": "every source text", "why_tests_cant": "All combinations of optional parts and bodies.", "anchors": ["src/parser.rs: Parser::finish_for_statement"]}
{"id": "C32", "title": "Method kinds are assigned by declaration form", "statement": "In every Ok tree each class member is ClassMethod when declared with `class`, otherwise Initializer exactly when named init and Method otherwise, and functions outside classes are PlainFunction.", "quantifier": "every source text", "why_tests_cant": "Every method of every class.", "anchors": ["src/parser.rs: Parser::finish_class_declaration", "src/parser.rs: Parser::function_definition"]}
{"id": "C33", "title": "Parsed trees are unresolved", "statement": "Every variable, assignment and super node of an Ok tree carries the placeholder location and every var declaration the placeholder slot.", "quantifier": "every source text", "why_tests_cant": "Every node of every tree.", "anchors": ["src/parser.rs: Parser::primary", "src/parser.rs: Parser::assignment", "src/parser.rs: Parser::finish_var_declaration"]}
{"id": "C34", "title": "A statement never starts with a terminator", "statement": "No accepted program or block contains a Terminator token at a position where a declaration starts. Hence a braced block, function or class body followed by a newline is rejected, an indented else branch is rejected, and an expression ending in an indented function cannot be a statement (the natural properties that these parse are false).", "quantifier": "every source text", "why_tests_cant": "A negative statement about every accepted program.", "anchors": ["src/parser.rs: Parser::statement", "src/parser.rs: Parser::finish_if_statement", "src/parser.rs: Parser::finish_var_declaration"]}
{"id": "C35", "title": "The resolver restores its context on every path", "statement": "After Resolver::resolve returns, whether Ok or Err, the resolver is again at the global scope only, outside any function and class, for any prior history of calls.", "quantifier": "every sequence of resolve calls on arbitrary statements", "why_tests_cant": "Every early return inside nested scopes must restore; REPL sessions are unbounded histories.", "anchors": ["src/resolver.rs: Resolver::resolve", "src/resolver.rs: Resolver::resolve_class", "src/resolver.rs: Resolver::resolve_function", "src/resolver.rs: Resolver::resolve_statement"]}
{"id": "C36", "title": "Resolution changes only variable slots", "statement": "When resolve returns Ok(code), code.statements equals the input except for the slot and location cells.", "quantifier": "every statement list and resolver history", "why_tests_cant": "Every node of every tree.", "anchors": ["src/resolver.rs: Resolver::resolve_statement", "src/resolver.rs: Resolver::resolve_expression"]}
{"id": "C37", "title": "Every reference is resolved to its innermost binding", "statement": "When resolve returns Ok, for each variable, assignment, this and super occurrence, following its distance outwards through the enclosing scopes reaches the nearest scope that declares the name (the global scope if none does) and its index is the slot of that name there (modulo 256).", "quantifier": "every statement list and resolver history", "why_tests_cant": "Every occurrence under every nesting of scopes.", "anchors": ["src/resolver.rs: Resolver::resolve_local_variable", "src/resolver.rs: Resolver::forward_reserve_global_var", "src/resolver.rs: Resolver::declare", "src/resolver.rs: Resolver::define"]}
{"id": "C38", "title": "Slots are distinct only up to 256 names per scope", "statement": "Within one scope two different names get different slot indices as long as the scope holds at most 256 names; with 257 names two of them share a slot and no error is reported (the intended limit of the code comment 'the 256th local should fail' is not enforced until 65536).", "quantifier": "every scope of every program and history", "why_tests_cant": "Needs scopes of every size, beyond test sizes.", "anchors": ["src/resolver.rs: ensure_scope_index_limit", "src/resolver.rs: Resolver::declare", "src/resolver.rs: Resolver::define", "src/environment.rs: SlotIndex"]}
{"id": "C39", "title": "A global name keeps its slot for the whole session", "statement": "Once a global name has been referenced or declared in a session, every later reference or declaration of it that resolves globally gets the same slot, across any number of later successful or failed resolve calls; a forward reference gets the slot its later definition gets.", "quantifier": "every history of resolve calls", "why_tests_cant": "Unbounded histories with failures in between.", "anchors": ["src/resolver.rs: Resolver::forward_reserve_global_var", "src/resolver.rs: Resolver::declare", "src/resolver.rs: Resolver::define"]}
{"id": "C40", "title": "Return statements are checked", "statement": "An accepted program has no return outside a function and no return of anything but nil directly inside a method named init; functions nested in init may return values.", "quantifier": "every statement list", "why_tests_cant": "All nestings of functions and classes.", "anchors": ["src/resolver.rs: Resolver::resolve_statement"]}
{"id": "C41", "title": "this and super are checked", "statement": "In an accepted program `this` occurs only inside a class and `super` only inside a class whose innermost enclosing class declaration has a superclass.", "quantifier": "every statement list", "why_tests_cant": "All nestings.", "anchors": ["src/resolver.rs: Resolver::resolve_expression"]}
{"id": "C42", "title": "Redeclaration is an error exactly in local scopes", "statement": "Declaring a name twice with var, fun, class or as a parameter in the same local scope is rejected; in the global scope it is allowed and reuses the slot.", "quantifier": "every statement list and history", "why_tests_cant": "All scopes and declaration forms.", "anchors": ["src/resolver.rs: Resolver::declare", "src/resolver.rs: Resolver::define"]}
{"id": "C43", "title": "A variable cannot be read in its own initializer", "statement": "Reading a name directly in the initializer of its own declaration in the same scope is rejected. In a session, a global whose initializer failed stays unreadable at top level with this same message until it is declared again (the naive 'a failed line has no effect on later lines' is false).", "quantifier": "every statement list and history", "why_tests_cant": "Histories with failures.", "anchors": ["src/resolver.rs: Resolver::resolve_expression", "src/resolver.rs: Resolver::declare"]}
{"id": "C44", "title": "Resolution panics only beyond 65534 nested scopes", "statement": "resolve never panics on a program whose scopes nest less than 65535 deep, and on such programs no distance is truncated; deeper programs panic.", "quantifier": "every statement list and history", "why_tests_cant": "Depths beyond any test; several expect/panic calls must be unreachable.", "anchors": ["src/resolver.rs: Resolver::begin_scope", "src/resolver.rs: Resolver::forward_reserve_global_var", "src/resolver.rs: Resolver::resolve_local_variable"]}
{"id": "C45", "title": "Resolve errors are reported once per failing top-level statement, in order", "statement": "resolve visits every top-level statement even after failures; Err carries exactly one cause for each failing top-level statement, in statement order, and Ok is returned exactly when there is none.", "quantifier": "every statement list and history", "why_tests_cant": "All combinations of failures.", "anchors": ["src/resolver.rs: Resolver::resolve"]}
{"id": "C46", "title": "Resolving in pieces is the same as resolving at once", "statement": "Resolving a++b in one call succeeds exactly when resolving a and then b on the same resolver both succeed, with the same trees and the same final session state.", "quantifier": "every pair of statement lists and every history", "why_tests_cant": "A law about all splits of all histories; the REPL relies on it.", "anchors": ["src/resolver.rs: Resolver::resolve", "src/main.rs: run_repl"]}
{"id": "C47", "title": "A class cannot inherit from itself", "statement": "A class whose superclass expression is its own name is rejected, and this error is reported only then.", "quantifier": "every statement list", "why_tests_cant": "All programs.", "anchors": ["src/resolver.rs: Resolver::resolve_class"]}
{"id": "C48", "title": "Resolution succeeds exactly on statically valid programs", "statement": "As long as no scope exceeds 65535 names, resolve returns Ok exactly when the program satisfies the static rules (scoping, return, this/super, redeclaration, own initializer, inheritance, nesting depth), and the resolved tree is the unique one allowed by the rules.", "quantifier": "every statement list and history", "why_tests_cant": "Both directions over all programs.", "anchors": ["src/resolver.rs: Resolver::resolve"]}
{"id": "C49", "title": "Running a file reports faithfully", "statement": "Running a file exits with status 65 exactly when parsing or resolving it yields an error, and then prints the causes in order ('[line L:C] Error...') to standard error and nothing to standard output; it exits with 0 exactly when both succeed, and then prints the resolved statements to standard output only. The only other endings are the scanner's endless loop (C01) and the resolver's panic beyond 65534 nested scopes (C44). A file that cannot be opened or read ends in a panic naming it, with nothing written.", "quantifier": "every file content", "why_tests_cant": "All contents.", "anchors": ["src/main.rs: main", "src/main.rs: run_file", "src/main.rs: run", "src/main.rs: print_result"]}
{"id": "C50", "title": "The REPL does not stop at end of input", "statement": "The REPL stops only when reading standard input fails (or on the endings of C49); at end of input it keeps prompting and printing an empty program forever (the expected 'the REPL exits at end of input' is false).", "quantifier": "every input history", "why_tests_cant": "An infinite execution cannot be tested.", "anchors": ["src/main.rs: run_repl"]}
{"id": "C51", "title": "REPL lines are independent except through globals", "statement": "A REPL line that fails to parse leaves the session state unchanged, and every line starts at global scope outside functions and classes whatever happened before: the session is one resolver called once for every line that parses, and resolves them as if they were one program.", "quantifier": "every sequence of lines", "why_tests_cant": "Unbounded histories.", "anchors": ["src/main.rs: run_repl", "src/main.rs: run"]}
{"id": "C52", "title": "Error rendering is faithful", "statement": "The Display text of an error cause determines its position, token and message, and that of a parse error its list of causes (if messages contain no newline). The command line's rendering determines the position always, and token and message if the message does not contain the delimiter `': `; without that condition it does not.", "quantifier": "every error value", "why_tests_cant": "All values.", "anchors": ["src/error.rs: ParseErrorCause", "src/error.rs: ParseError", "src/main.rs: print_parse_error"]}
{"id": "C53", "title": "parseString returns the resolved tree faithfully", "statement": "The WebAssembly entry point fails exactly when parse or resolve fails, and its value determines the resolved tree (two different trees serialize to different values).", "quantifier": "every source text, every pair of trees", "why_tests_cant": "Injectivity over all pairs.", "anchors": ["src/wasm.rs: wasm_parse_string", "src/ast.rs: Stmt", "src/ast.rs: Expr", "src/ast.rs: Map"]}
{"id": "C54", "title": "The demo page shows booleans indistinguishably", "statement": "The demo page shows two accepted programs identically exactly when their resolved trees are equal up to the values of boolean literals: true and false are rendered alike (the expected faithfulness of the display is false), everything else is told apart. Trees and error messages are never confused.", "quantifier": "every boolean literal in every program", "why_tests_cant": "Found by trying to prove injectivity.", "anchors": ["index.html: pretty"]}
{"id": "C55", "title": "The division of a source into lexical elements is unique", "statement": "Every source text can be divided in exactly one way into tokens, trivia and illegal pieces that each obey the lexical rules (maximal munch included), so 'the tokens of a source' is well defined.", "quantifier": "every source text", "why_tests_cant": "Ambiguity of the lexical rules could hide anywhere in the space of texts; a test only ever sees the division the code picked.", "anchors": ["src/scanner.rs: Scanner::scan_token"]}
{"id": "C56", "title": "A number token carries its decimal value correctly rounded", "statement": "The value of every number token is the binary64 nearest to the decimal spelled by its lexeme, ties going to the even significand, infinity from 2^1024-2^970 up and zero when nothing nearer exists; these rules determine the value uniquely.", "quantifier": "every number token of every source text, of any length", "why_tests_cant": "Infinitely many literals; rounding mistakes show only near ties and at the ends of the range.", "anchors": ["src/scanner.rs: Scanner::scan_number"]}
{"id": "C57", "title": "An else belongs to the nearest if", "statement": "In every Ok tree the then-branch of an if with an else is never a statement to which the else could have belonged instead.", "quantifier": "every source text", "why_tests_cant": "Dangling else over all nestings of if, while and for.", "anchors": ["src/parser.rs: Parser::finish_if_statement"]}
{"id": "C58", "title": "Branches and loop bodies are statements, not declarations", "statement": "In every Ok tree no branch of an if and no loop body is itself a var, fun or class declaration (a block may contain them), so a declaration never runs conditionally in the surrounding scope.", "quantifier": "every source text", "why_tests_cant": "All programs.", "anchors": ["src/parser.rs: Parser::finish_if_statement", "src/parser.rs: Parser::loop_body_statement", "src/parser.rs: Parser::declaration"]}
{"id": "C59", "title": "A superclass is a plain name", "statement": "In every Ok tree the superclass of a class, if any, is a variable.", "quantifier": "every source text", "why_tests_cant": "All programs.", "anchors": ["src/parser.rs: Parser::finish_class_declaration"]}
{"id": "C60", "title": "Debug and release builds accept the same programs", "statement": "For every source, parse and parse_repl_line return Ok(t) in a build with overflow checks exactly when they return Ok(t) in a build without them.", "quantifier": "every source text", "why_tests_cant": "Tests run in one build mode.", "anchors": ["src/parser.rs: Parser::previous"]}
{"id": "C61", "title": "The printed tree determines the program's tree", "statement": "If running two files prints the same text with status 0, their resolved trees are the same: nothing of the tree is lost or ambiguous in the output (given that Rust's Debug quotes strings decodably and writes different numbers differently).", "quantifier": "every pair of sources", "why_tests_cant": "Injectivity over all pairs of programs.", "anchors": ["src/main.rs: print_result", "src/ast.rs: Stmt", "src/ast.rs: Expr"]}
{"id": "C62", "title": "Exactly the documented syntax errors are reported", "statement": "For every token sequence, the errors of parse and parse_repl_line (location, token and message of each, in order) are exactly those obtained by following, along the grammar, the table of expected tokens and their messages, and resuming after the next statement keyword; the table determines them uniquely. Likewise the single error of parse_expression on any source with a token.", "quantifier": "every source text that scans, both builds", "why_tests_cant": "Every combination of wrong program, message and recovery; a test fixes a handful of messages.", "anchors": ["src/parser.rs: Parser::parse", "src/parser.rs: Parser::synchronize", "src/parser.rs: Parser::consume", "src/parser.rs: Parser::error_from_peek", "src/parser.rs: Parser::error_from_last"]}
{"id": "C63", "title": "Debug and release builds give the same results", "statement": "parse and parse_repl_line return the same Ok tree or the same errors whether or not overflow checks are compiled in; so does parse_expression on any source with a token. Hence the command line, the REPL and parseString behave identically in both builds.", "quantifier": "every source text", "why_tests_cant": "Tests run in one build mode; the parser's index arithmetic depends on it.", "anchors": ["src/parser.rs: Parser::previous", "src/parser.rs: Parser::parse_expression"]}
{"id": "C64", "title": "Where errors are found and where parsing resumes", "statement": "The first error is that of the first declaration, after a possibly empty sequence of correct ones, that is not there; parsing resumes right after the next class, fun, var, for, if, while, print or return token from where the error left off, or at the end if there is none, and the remaining errors are those of the tokens from there. Hence correct lines after a wrong one can be reported as wrong: the claim that they never are is refuted.", "quantifier": "every source text that scans", "why_tests_cant": "All pairs of wrong and correct programs.", "anchors": ["src/parser.rs: Parser::synchronize", "src/parser.rs: Parser::parse"]}
{"id": "C65", "title": "Exactly the documented resolution errors are reported", "statement": "For every tree, Resolver::resolve returns exactly the errors (location, token and message, in order, at most one for each top-level statement: the first) given by a list of checks in evaluation order: redeclared and self-referential variables, misplaced return, this and super, self-inheritance, full scopes; it succeeds when no check fails and panics when the checks exceed the nesting limit. Likewise for every sequence of calls on one resolver.", "quantifier": "every syntax tree, every session", "why_tests_cant": "Every combination of nested misuse and which error comes first.", "anchors": ["src/resolver.rs: Resolver::resolve", "src/resolver.rs: Resolver::resolve_statement", "src/resolver.rs: Resolver::resolve_expression"]}
{"id": "C66", "title": "What a session leaves in the global scope", "statement": "After any sequence of calls, failed ones included, the names that have a global slot, their order, and the names that cannot be read because a declaration failed are those computed from the successful checks.", "quantifier": "every session", "why_tests_cant": "Partial effects of failed statements over arbitrary histories.", "anchors": ["src/resolver.rs: Resolver::declare", "src/resolver.rs: Resolver::define", "src/resolver.rs: Resolver::resolve"]}
{"id": "C67", "title": "What running a file does, from text to output", "statement": "Every text has exactly one fate by the specifications of lexing, layout, grammar, syntax errors and resolution alone; running a file with that text prints the resolved tree and exits with 0, or prints exactly the specified errors and exits with 65, or panics (nesting) or hangs (dedent between levels) accordingly.", "quantifier": "every source text", "why_tests_cant": "The composition of all phases for all programs.", "anchors": ["src/main.rs: run_file", "src/main.rs: run", "src/main.rs: print_result"]}
{"id": "C68", "title": "What parseString does; it agrees with the command line", "statement": "parseString returns the value of the resolved tree, or throws the specified errors, or panics or hangs, according to the same fate of the text; hence the demo page and the command line never disagree about a program.", "quantifier": "every source text", "why_tests_cant": "Two entry points over all programs.", "anchors": ["src/wasm.rs: wasm_parse_string"]}
{"id": "C69", "title": "What a REPL session writes", "statement": "The outputs of the REPL after any sequence of lines are exactly those of the dialogue in which each line has its fate in the global scope left by the lines before it; a further line ends the session exactly if its fate is to hang or to be nested too deeply.", "quantifier": "every sequence of input lines", "why_tests_cant": "All interactions of lines through the session state.", "anchors": ["src/main.rs: run_repl", "src/main.rs: run"]}
{"id": "C70", "title": "How syntax trees are shown", "statement": "What is printed for a program is, for every tree, the pretty Debug form of it as data: each variant and struct under its own name, fields in order with their names, one item per line indented by four spaces per level and followed by a comma, empty lists and maps on one line. The value of parseString is the tree as data with objects for structs, type and args for variants (no args if there are none), undefined for an absent part. The page shows that value with two spaces per level and composite values on lines of their own.", "quantifier": "every syntax tree", "why_tests_cant": "The shape for all trees at all depths; a typo in one variant's name or one missing level is enough to break it.", "anchors": ["src/main.rs: print_result", "src/wasm.rs: wasm_parse_string", "src/ast.rs: Stmt", "src/ast.rs: Expr", "index.html: pretty"]}
{"id": "C71", "title": "Quoting on the page", "statement": "The page writes every string as its JSON string literal, byte by byte, and leaves a key unquoted exactly if it is a letter or underscore followed by letters, digits and underscores and no reserved word of JavaScript.", "quantifier": "every string", "why_tests_cant": "All strings, control characters included.", "anchors": ["index.html: escapeString", "index.html: escapeMapKey"]}
{"id": "C72", "title": "The messages of all errors", "statement": "Every error of the scanner has no token and one of four messages, or 'Unexpected token: ' followed by a cluster of the source; every error of the parser carries a token and one of 46 messages; every error of the resolver, also in a session, carries a token and one of nine messages.", "quantifier": "every source text, syntax tree and session", "why_tests_cant": "Rules out any other message anywhere, e.g. an empty one.", "anchors": ["src/scanner.rs: Scanner::scan_tokens", "src/parser.rs: parse", "src/resolver.rs: resolve"]}
{"id": "C73", "title": "The text of errors determines the errors", "statement": "The text thrown by parseString, and what the page shows, determines the list of errors of a program: how many, where, at which token, with which message. On standard error this holds between programs with one error each; it is false in general: a program with one error and one with two errors print the same text.", "quantifier": "every pair of source texts", "why_tests_cant": "A statement about all pairs of programs; the counterexample needs a forged key.", "anchors": ["src/wasm.rs: wasm_parse_string", "src/error.rs: fmt", "src/main.rs: print_result"]}
{"id": "C74", "title": "Positions never influence what a program means", "statement": "If the scanner gives two sources the same tokens (type, text, string and number values) or the same errors up to line and column, then parse, parse_repl_line and parse_expression give the same result up to the positions stored in the tree and in the causes: the same tree, or the same messages at the same tokens, or both hang. Of the texts of the tokens only those of names matter for an accepted program. The resolver, given two trees that differ only in positions, gives trees that differ only in positions, or the same messages, or the same panic, and reaches the same state in a session.", "quantifier": "for all pairs of sources, all token lists, all pairs of trees, all resolver states, both builds", "why_tests_cant": "A dependence on a position (for example comparing line numbers to decide where a statement ends) shows only for particular layouts of a program; tests fix one layout per program.", "anchors": ["src/scanner.rs: Scanner::scan_tokens", "src/parser.rs: parse", "src/parser.rs: parse_expression", "src/resolver.rs: resolve"]}
{"id": "C75", "title": "Spaces between tokens, blank lines and comments do not change the program", "statement": "Adding a blank line after any line, changing the text of a comment, adding a comment line at the current indentation (not within a continued line), and adding spaces after any token (not before an opening parenthesis, and not between a trailing operator and the end of the line) leaves the result of parse unchanged up to positions, whether the program is accepted or rejected. The unrestricted version is false: a space before an opening parenthesis turns a call f(1) into a call with a parenthesised argument.", "quantifier": "for all sources, all places in them, all numbers of spaces, all comment texts, both builds", "why_tests_cant": "The statement is about every place in every program; tests compare a few pairs.", "anchors": ["src/scanner.rs: Scanner::scan_token", "src/parser.rs: parse"]}
{"id": "C76", "title": "Every tree can be written as a program", "statement": "Every syntax tree the parser could return, with ASCII names and strings (strings without quotes and carriage returns) and numbers that are values of literals, and in which no expression statement starts with an empty map, can be written as a text that parse and parse_repl_line accept with that very tree up to positions. The text is given by a printer from trees to texts; it determines the program.", "quantifier": "for all trees of that kind, both builds", "why_tests_cant": "A round trip through text for all trees, including every number an f64 literal can have (each written as an exact decimal) and every combination of tokens next to each other; tests cover a few trees.", "anchors": ["src/scanner.rs: Scanner::scan_tokens", "src/parser.rs: parse", "src/parser.rs: parse_repl_line"]}
{"id": "C77", "title": "Indentation is never needed", "statement": "For every accepted program in which no expression statement starts with an empty map there is a source whose scan contains no Indent and no Outdent token and that parse accepts with the same tree up to positions: indentation is pure notation for braces. The identifiers may be in any script. Conversely a source without indentation never gives a statement of a program, body or block that starts with an empty map, except in the initialiser of a for; so the condition is needed.", "quantifier": "for all sources that parse or parse_repl_line accepts, both builds", "why_tests_cant": "The statement is about every program and requires a brace form of every construct in every nesting.", "anchors": ["src/scanner.rs: Scanner::scan_tokens", "src/parser.rs: parse", "src/parser.rs: Parser::finish_block", "src/parser.rs: Parser::consume_begin_block"]}
{"id": "C78", "title": "Programs can be written one after the other", "statement": "Let a be an accepted program made of whole lines and b any source whose first non-blank line is not indented. If b does not start with a colon, equals sign, closing brace, else or map entry, and a does not end with a variable declaration whose initialiser ends in a block, then parse (and parse_repl_line) of a followed by b is: the statements of a followed by those of b if b is accepted; rejected with the same messages as b if b is rejected; hanging if b makes the scanner hang. Nothing left open at the end of a (indented blocks) reaches into b. Without the condition on the start of b it is false: two maps written without braces become one. Without the condition on the end of a it is false: after `var x = {} fun()` with an indented body the next line is taken as an argument.", "quantifier": "for all accepted programs a, all sources b, both builds", "why_tests_cant": "A statement about all pairs of programs; both exceptions are programs no test contains.", "anchors": ["src/scanner.rs: Scanner::scan_tokens", "src/parser.rs: parse", "src/parser.rs: parse_repl_line", "src/parser.rs: Parser::literal_map"]}
{"id": "C79", "title": "The resolver looks at names only to compare them", "statement": "For every injective change of the names of variables, functions, classes and parameters that leaves this, super and return alone: resolving the changed program gives the changed tree with the same slots and depths, or the same errors (positions and messages) about the changed names; a session of the resolver likewise. At the same time properties, methods, map keys and strings may be given any other names whatever, except that the method name init is kept apart: the resolver does not look at them. If two names of variables may become one it is false.", "quantifier": "for all trees, all injective renamings, all states of a resolver", "why_tests_cant": "Quantifies over all programs and all renamings; a test can only try some names.", "anchors": ["src/resolver.rs: resolve", "src/resolver.rs: Resolver::resolve"]}
{"id": "C80", "title": "The resolver ignores the slots it finds and is idempotent", "statement": "Two trees that differ only in their slots and depths are resolved alike, in every state; so resolving a resolved tree again gives the same tree, in a fresh resolver and in the state in which it was first resolved.", "quantifier": "for all trees, all states of a resolver, all sessions", "why_tests_cant": "The statement compares the runs on all pairs of trees that differ in slots only.", "anchors": ["src/resolver.rs: resolve", "src/resolver.rs: Resolver::resolve"]}
{"id": "C81", "title": "A program that was accepted is accepted again", "statement": "In a session of the resolver, a program that was accepted at some moment and is resolved again after any number of further accepted programs is accepted with the same tree, slots included, and leaves the resolver exactly as it was (within the limit on globals and on names in a scope). After a program with errors it need not be: a failed `var y = y` makes `print y` an error from then on.", "quantifier": "for all sessions, all programs within the limits", "why_tests_cant": "A statement about sessions of any length; it needs the monotonicity of all rules in the names known.", "anchors": ["src/resolver.rs: Resolver::resolve", "src/resolver.rs: Resolver::resolve_statement"]}
{"id": "C82", "title": "Sizes are linear", "statement": "A scan that succeeds returns at most 2n+1 tokens for a source of n grapheme clusters; one that fails, at most n errors. A program accepted by parse or parse_repl_line has at most 4n parts (statements, expressions, class, method and function definitions, parameters, map entries), and fewer than twice as many parts as tokens; an expression accepted by parse_expression at most 4n. parse and parse_repl_line report at most 2n+1 errors; the resolver at most one per statement.", "quantifier": "for all sources, all trees and resolver states, both builds", "why_tests_cant": "Tests check no sizes; a rule that uses up no token, or an error loop that reports twice at one place, shows only on unusual input (an empty map parsed from `this :` uses up nothing).", "anchors": ["src/scanner.rs: Scanner::scan_tokens", "src/parser.rs: parse", "src/parser.rs: parse_repl_line", "src/parser.rs: parse_expression", "src/resolver.rs: Resolver::resolve"]}
{"id": "C83", "title": "Nesting is unlimited and so is the parser's recursion", "statement": "A variable in n pairs of parentheses is accepted for every n, with the tree of n nested groupings; but parsing it takes more than n nested calls of the expression method, so no limit on the depth of recursion serves all sources: the code has no nesting limit of its own and relies on the size of the native stack.", "quantifier": "for all n, both builds", "why_tests_cant": "A test can only use a few depths; the property is about all.", "anchors": ["src/parser.rs: parse", "src/parser.rs: Parser::expression", "src/parser.rs: Parser::primary"]}
{"id": "C84", "title": "Names are only names, in the text", "statement": "If the names in a source are replaced by other names, one to one, leaving init and the reserved words alone (strings may follow the same replacement, comments may change freely), then parse, parse_repl_line and parse_expression give the tree with the names replaced, up to positions, or errors with the same messages in the same order; the resolver then gives the tree with the same slots, or the same errors about the replaced names. Replacing the text of every name by a text that is a name is enough: nothing else in the source is read differently. Without the exception for init it is false.", "quantifier": "for all sources, all injective replacements, both builds", "why_tests_cant": "Quantifies over all sources and all replacements. A scanner or parser that treats one particular name, or a name of a particular length or first letter, differently passes any test that does not use it.", "anchors": ["src/scanner.rs: Scanner::scan_tokens", "src/scanner.rs: Scanner::scan_identifier", "src/parser.rs: parse", "src/parser.rs: parse_repl_line", "src/parser.rs: parse_expression", "src/resolver.rs: resolve"]}
{"id": "C85", "title": "Every initial part of a program is a program", "statement": "If parse accepts a source as the statements s1 ... sn, then for every k some initial part of the source is accepted as exactly s1 ... sk, positions included; the same holds for parse_repl_line. If the resolver accepts s1 ... sn with the result t1 ... tn, it accepts s1 ... sk with the result t1 ... tk.", "quantifier": "for all accepted sources, all k, both builds", "why_tests_cant": "Quantifies over all programs and all places to cut. No statement is read differently because of what follows it, although the parser looks ahead and blocks are closed by the indentation of the next line or by the end of the file.", "anchors": ["src/scanner.rs: Scanner::scan_tokens", "src/parser.rs: parse", "src/parser.rs: parse_repl_line", "src/resolver.rs: resolve"]}
{"id": "C86", "title": "What can be said on one line", "statement": "If a text without a newline, except perhaps at its end, is accepted by parse or parse_repl_line, then at most one of its statements is a print, return, break, continue, expression statement (or a variable whose initialiser does not start with a map), not counting the initialiser of a for, and this statement ends the text. So no function or method entered on one line contains a print, return, break, continue or expression statement, and a program with a function that returns a value has no form on one line. If the scanner ends the line with a newline token, the last statement must be one that can take it, so function, class and block statements followed by Enter are rejected. Conversely, every well-formed ASCII tree in which only the end of the last statement needs the end of its line is accepted from a text on one line.", "quantifier": "for all one-line texts, all Unicode tables that are sane, both builds", "why_tests_cant": "A statement about all lines a user of the REPL could ever type, including that no spelling exists for some programs.", "anchors": ["src/scanner.rs: Scanner::scan_tokens", "src/parser.rs: parse", "src/parser.rs: parse_repl_line"]}
{"id": "C87", "title": "Lines added at the end of a program change at most its last statement", "statement": "If parse accepts a text that ends with a newline as the statements s1 ... sn, and also accepts the text followed by anything else, then the second result starts with exactly s1 ... s(n-1), positions included, and has at least n statements. The last statement can change. For parse_repl_line this does not hold.", "quantifier": "for all pairs of accepted sources one of which starts with the lines of the other, both builds", "why_tests_cant": "Quantifies over all programs and everything that can be written after them; the parser looks two tokens ahead after a newline to see whether a map goes on.", "anchors": ["src/scanner.rs: Scanner::scan_tokens", "src/parser.rs: parse", "src/parser.rs: parse_repl_line"]}
{"id": "C88", "title": "A failing write is never hidden, and changes nothing else", "statement": "Let stdout and stderr each take some number of bytes (or any number) and then fail. Run on a file, the process exits with status 0 exactly if the file is accepted and stdout takes the whole tree, and with 65 exactly if the file is rejected and stderr takes all error lines. If it exits at all, it has written and returned the same as with streams that never fail; otherwise it panics, with an initial part of that text written that fills one of the streams. A REPL session proceeds as with streams that never fail up to the first text that does not fit, where it panics. At the end of input it goes on for ever, but only while stdout takes everything. main starts the REPL exactly if the file name is empty.", "quantifier": "for all files, all sequences of reads, all capacities of the streams, both builds", "why_tests_cant": "Tests do not run the program into full disks and closed pipes at every byte.", "anchors": ["src/main.rs: main", "src/main.rs: run_file", "src/main.rs: run_repl", "src/main.rs: print_result", "src/main.rs: print_parse_error"]}
{"id": "C89", "title": "Entering a program line by line is the same as running it as a file", "statement": "Take pieces of text each of which is a program by itself, ends with a newline, is not indented and can neither be read as going on with the piece before nor goes on in the next. Entered in the REPL one after the other they get the same answers as the file that consists of them: if all are accepted, the file is accepted and its resolved tree is the answers one after the other, slots included and positions aside; otherwise the file is rejected with the same messages in the same order. If the resolver panics on one, it panics on the file with the same message.", "quantifier": "for all sequences of such pieces, all Unicode tables that are sane, both builds", "why_tests_cant": "The REPL and the file mode parse with different settings, and the REPL keeps a resolver across lines; agreement concerns all programs and all ways to divide them.", "anchors": ["src/main.rs: run_repl", "src/main.rs: run_file", "src/main.rs: run", "src/parser.rs: parse", "src/parser.rs: parse_repl_line", "src/resolver.rs: resolve"]}
{"id": "C90", "title": "Whole lines are scanned without looking at what follows", "statement": "Take a text that ends with a newline and leaves no string open. If scanning it never ends, neither does scanning the text with anything after it. If it gives errors, the longer text gives the same errors first (or is never scanned to the end). If it gives tokens, these are some tokens, then only outdents and the end of the file, and the tokens of the longer text, if it has any, start with the same ones. A string left open invalidates this.", "quantifier": "for all such texts and everything that can follow them, all Unicode tables that are sane", "why_tests_cant": "Quantifies over all continuations of a text; the scanner has state that could leak across lines (indentation stack, continuation flag).", "anchors": ["src/scanner.rs: Scanner::scan_tokens"]}
{"id": "C91", "title": "Unicode tables matter only for the characters in the text", "statement": "If two versions of the Unicode tables classify the first character of every cluster of a text alike, then scanning, parsing, resolving, running a file, a REPL session, parseString and the demo page give the same for both.", "quantifier": "for all pairs of sane tables and all texts", "why_tests_cant": "A test runs with one version of the tables; this says which programs a new version can affect.", "anchors": ["src/scanner.rs: Scanner::scan_tokens", "src/parser.rs: parse", "src/parser.rs: parse_repl_line", "src/parser.rs: parse_expression", "src/main.rs: run"]}
{"id": "C92", "title": "Strings in printed trees and errors can be read back", "statement": "Wherever a string is printed with Rust's Debug (the tree printed for a file or a REPL line, the token in a thrown error), it is printed between quotation marks character by character: NUL, tab, newline, carriage return, quotation mark and backslash as a backslash and a letter, characters that are unprintable or extend a grapheme as \\u{...}, everything else as itself. The text contains no line break, its end can be told whatever follows it, and the string can be recovered from it.", "quantifier": "for all strings of Unicode scalar values, all tables of unprintable characters", "why_tests_cant": "All strings, including quotation marks, backslashes, unprintable and multi-byte characters in any order, with anything after them.", "anchors": ["src/main.rs: run", "src/wasm.rs: wasm_parse_string", "src/error.rs: fmt"]}
{"id": "C93", "title": "Numbers are printed with the fewest digits that read back", "statement": "For every number that a literal in a program can denote, the digits printed are at most seventeen, read back as the number, and no decimal that reads back has fewer or is as short and nearer. Different numbers are printed differently, by Rust in the tree and by JavaScript on the page, and the text contains no delimiter of the surrounding text. From 0.0001 up and below 1e16 Rust's text is itself a literal that a program can contain, with the same value; for other numbers it is not.", "quantifier": "for all finite literals (all doubles they round to)", "why_tests_cant": "A statement about all 2^63 doubles and for each about all decimal representations.", "anchors": ["src/main.rs: run", "src/scanner.rs: Scanner::scan_tokens"]}
{"id": "C94", "title": "What is printed determines the program or the error, with nothing assumed about the formats", "statement": "With strings and numbers printed as Rust and JavaScript print them: two files that are accepted with the same output have the same resolved tree; two sources for which parseString throws the same text have the same errors; the demo page shows the same for two accepted sources exactly if their trees differ at most in booleans; the paragraph that describes an error determines it.", "quantifier": "for all pairs of sources, all tables of unprintable characters, either choice between equally near decimals, both builds", "why_tests_cant": "Injectivity over all pairs of programs, through quoting and number formatting.", "anchors": ["src/main.rs: run", "src/main.rs: run_file", "src/wasm.rs: wasm_parse_string"]}
{"id": "C95", "title": "Lines added at the end repair at most the last error", "statement": "If a text that ends in a newline is rejected with several errors, then whatever text is added behind it is rejected too, or hangs the scanner. In more detail: if both texts are scanned without error, parsing the longer one (as a file or as a REPL line) reports all errors of the shorter one but the last, in the same order and first; and if scanning the shorter one fails, scanning the longer one reports all its errors but the last. That the last error stays is refuted: a line of body or a closing quote can repair it.", "quantifier": "for all texts, all additions, all numbers of errors, both builds, parse and parse_repl_line", "why_tests_cant": "An error in the middle depends on how recovery continued from the error before; the parser reads ahead, and the claim is over all continuations of all rejected texts.", "anchors": ["src/parser.rs: parse", "src/parser.rs: synchronize", "src/parser.rs: parse_repl_line", "src/scanner.rs: Scanner::scan_tokens"]}
{"id": "C96", "title": "A Parser used directly, on any tokens and by any number of calls", "statement": "Take Parser::new(tokens) or Parser::with_trailing_expression(tokens) with any vector of tokens, and call parse and parse_expression on it in any order. Every call returns or panics; none runs forever. A panic needs a vector without Eof token, or with nothing before its first Eof token, or with a Number or String token before it that carries no value. Tokens after the first Eof token have no effect. After a parse that returned, every further parse returns Ok with no statements, even when the first failed, and every further parse_expression returns the error \"Expect expression.\" at the last token before Eof. Without an Eof token no call is ever accepted: a parse that returns reports the errors, by place and message, of the same tokens with an Eof at the place of the last one, followed by \"Expected end of file\" at that place. The empty vector makes parse panic in a build with overflow checks and return \"Expected end of file\" in one without.", "quantifier": "for all token vectors (not only those the scanner makes), all sequences of calls, both modes, both builds", "why_tests_cant": "The token vectors a caller may build by hand, and the sequences of calls, are unlimited; termination of recovery on malformed vectors cannot be tested.", "anchors": ["src/parser.rs: Parser::new", "src/parser.rs: Parser::with_trailing_expression", "src/parser.rs: Parser::parse", "src/parser.rs: Parser::parse_expression", "src/parser.rs: Parser::previous", "src/parser.rs: Parser::synchronize"]}
{"id": "C97", "title": "Scanning again gives only the end", "statement": "If the first scan_tokens on a Scanner returns, in whatever way, every later call on it returns Ok with the same list: one Outdent for each block still open at the end and then Eof, all at one place and with one lexeme. Those are the last tokens of the first result, if that was Ok, and there are as many Outdents as the tokens before them open more blocks than they close. Scanning n times hangs only if scanning once does. That a second call gives the first result again is refuted.", "quantifier": "for all sources and all numbers of calls", "why_tests_cant": "The state left in the scanner depends on the whole text; tests create a new scanner each time.", "anchors": ["src/scanner.rs: Scanner::new", "src/scanner.rs: Scanner::scan_tokens", "src/scanner.rs: Scanner::close_all_blocks", "src/scanner.rs: Scanner::is_at_end"]}
{"id": "C98", "title": "The parser looks only at kinds of tokens and at equality of keys", "statement": "Take two lists of tokens of the same kinds, whose names, map keys, numbers, strings, lexemes and positions are related in pairs by any relations that keep which keys are equal, what is called this and what is called init. Parsing them (as a program, a REPL line or an expression) gives two trees of the same form with related leaves, or the same error messages in the same order at related places naming related lexemes, or the same panic. So no choice of the parser depends on the value of a number, the text of a string or of a name, or a position. In particular two sources that differ only in numbers and in strings that are no keys are accepted alike. That strings which are keys do not matter is refuted.", "quantifier": "for all pairs of token lists (also hand-made ones), all relations between their contents, both modes, both builds", "why_tests_cant": "A statement over all pairs of inputs and all relations between their contents (parametricity); a test compares two inputs.", "anchors": ["src/parser.rs: parse", "src/parser.rs: parse_repl_line", "src/parser.rs: parse_expression", "src/parser.rs: Parser::parse", "src/parser.rs: Parser::parse_expression"]}
{"id": "C99", "title": "The resolver only compares names", "statement": "Two trees of the same form, whose names are related by any relation that keeps which names are equal and what is called this, super and init, and whose numbers, strings, keys and positions are arbitrary, are resolved alike: both accepted, with the same slots and distances at the same nodes, or both rejected with the same messages in the same order, at the places and with the names of the second tree. This holds from related states of a resolver and leaves related states, so it holds for every line of a REPL session, and for run as a whole on two sources whose tokens are related as in C98. With names that are merged, or renamed to init, it is refuted.", "quantifier": "for all pairs of trees, all relations between their leaves, all pairs of related resolver states, both builds", "why_tests_cant": "A statement over all pairs of trees and all relations between their leaves.", "anchors": ["src/resolver.rs: resolve", "src/resolver.rs: resolve_statement", "src/resolver.rs: resolve_expression", "src/main.rs: run"]}
{"id": "C100", "title": "What == says about tokens, trees and errors", "statement": "Two programs returned by the parsing functions, resolved or not, are == exactly when they are identical up to the order in which the entries of maps stand; so are two expressions. On such trees == is reflexive, symmetric and transitive, and where no map has two entries == means identical. Two scanned token lists are == exactly when they are identical, as are two lists of errors: a float is carried by Number tokens only and is what their lexeme denotes, never NaN or -0. That == trees are identical is refuted (entries in another order print differently), and so are, for trees put together by hand, that == is reflexive (NaN) and that == trees resolve to == trees.", "quantifier": "for all pairs of sources (different builds and entry points allowed), all resolver states at top level, all lists of errors", "why_tests_cant": "A statement over all pairs and triples of trees; assert_eq! in the unit tests relies on it.", "anchors": ["src/parser.rs: parse", "src/parser.rs: parse_repl_line", "src/parser.rs: parse_expression", "src/scanner.rs: Scanner::scan_tokens", "src/resolver.rs: resolve"]}
{"id": "C101", "title": "Exactly which trees a text can be parsed to", "statement": "A tree is, up to positions, what parse returns for some text exactly when: it is well-formed (C35, C69); its names, strings and numbers can be written as tokens; no statement is an expression that starts with an empty map, unless it is an assignment to a property or an element, or the initialiser of a for loop; and no if with an else has a branch whose last part would take the else. For each such tree an explicit writer gives a text (in ASCII, if the leaves are) that parse and parse_repl_line turn back into it, and the text determines the tree. Behind this: the scanner never puts the end of a line directly behind an Outdent. The writer indents once for each assignment to an empty map inside another; with 65535 such inside each other or fewer the claim is an equivalence, beyond that the conditions are still necessary.", "quantifier": "for all trees, all texts, all oracles for letters that are right for ASCII, both builds", "why_tests_cant": "Which trees have no text cannot be tested, since it is about all texts; the writer is checked on all trees.", "anchors": ["src/parser.rs: parse", "src/parser.rs: Parser::parse", "src/parser.rs: Parser::expression_statement", "src/scanner.rs: Scanner::scan_tokens"]}
{"id": "C102", "title": "The resolver sees only the outline of a program", "statement": "Two programs whose outlines agree get the same verdict from the resolver: the same slots and distances, in the same order, and the same final state, or the same errors. The outline of a program lists the names that are read, written, declared and defined, in the order of the text, with the blocks, functions and classes around them and the places of return and super. Operators, literals, parentheses, property names, map keys, names of methods other than init, and the choice between print and an expression or between if, while and for, are not in it. With positions removed from the outlines the same holds, and only the positions of the errors may differ. Whether nil itself is returned must stay in the outline: return nil is accepted in an initializer and return (nil) is not.", "quantifier": "all pairs of programs, all resolver states, with and without positions", "why_tests_cant": "Relates the results on unboundedly many pairs of programs of any size; a test compares the few pairs somebody thought of.", "anchors": ["src/resolver.rs: resolve", "src/resolver.rs: Resolver::resolve", "src/resolver.rs: Resolver::resolve_statement", "src/resolver.rs: Resolver::resolve_expression", "src/resolver.rs: Resolver::resolve_class", "src/resolver.rs: Resolver::resolve_function"]}
{"id": "C103", "title": "Resolve errors point at tokens of their own statements, in the order of the text", "statement": "When a program or a REPL line parses, its tokens fall into consecutive runs, one for each top-level statement. Every error of the resolver is at a token of the run of the statement it is reported for, and the text it names is the text of that token; the only exception is the error for a full table of globals at an assignment, which is at the = and names the variable. Hence the errors of a program point at different tokens and are listed in the order in which these stand in the text.", "quantifier": "every source text that parses, as a program or a REPL line, and every state of the resolver", "why_tests_cant": "Covers programs of any size and nesting, after any session; tests look at the location of single errors in small programs.", "anchors": ["src/resolver.rs: Resolver::resolve", "src/resolver.rs: Resolver::resolve_statement", "src/resolver.rs: Resolver::resolve_expression", "src/resolver.rs: Resolver::resolve_class", "src/resolver.rs: Resolver::resolve_function", "src/main.rs: run"]}
{"id": "C104", "title": "Accepted programs can be put together, and their statements reordered", "statement": "Programs that the resolver accepts one by one are accepted when their statements are put one after the other (as long as no scope gets more than 65535 names): nothing that was accepted can spoil what follows. If no statement reads its own name in its initializer, whether a program is accepted does not depend on the order of its top-level statements, and the global names that get slots are the same ones, in another order. Hence two files that run without errors also do so as one file, under the conditions of C78. Without that condition the order matters: var a = 1; var a = a is accepted, the other order is not.", "quantifier": "all programs, all ways of putting them together and all orders of the statements", "why_tests_cant": "A test tries a few orders of a few programs; the claim covers all permutations of programs of any length, with forward references between any of the statements.", "anchors": ["src/resolver.rs: resolve", "src/resolver.rs: Resolver::resolve", "src/resolver.rs: Resolver::forward_reserve_global_var", "src/resolver.rs: Resolver::declare", "src/resolver.rs: Resolver::define"]}
{"id": "C105", "title": "Local names do not matter", "statement": "Two programs that differ only in the names of local variables, functions, classes and parameters (each name standing for the same declaration in both, so that nothing is captured) are resolved alike: every reference and declaration gets the same slot, or the same complaints are made in the same order at the same places, and a session goes on from the same state. Files that parse to such programs end in the same way. Names cannot be chosen freely: a new name that captures another changes the slots. Nor do the slots tell everything: functions and classes get no slot of their own in the tree, so programs that define different global functions at a place can have the same slots.", "quantifier": "all programs and all consistent choices of local names, in every state of a session", "why_tests_cant": "A test renames a few variables in a few programs; the claim covers every program and every renaming, in any nesting of blocks, functions and classes, including names that hide globals or one another.", "anchors": ["src/resolver.rs: resolve", "src/resolver.rs: Resolver::resolve", "src/resolver.rs: Resolver::resolve_local_variable", "src/resolver.rs: Resolver::declare", "src/resolver.rs: Resolver::define", "src/main.rs: run"]}
{"id": "C106", "title": "The parser looks at most two tokens ahead", "statement": "Where the parser stops with an expression, a statement or an error, its result depends only on the tokens before that place, the token there and the two after it: on any two vectors of tokens that agree so far it returns the same and stops at the same place. So the statements and errors that the top level has found before a place are the same whatever is changed more than two tokens further on: an accepted program begins with those statements, and a rejected one reports those errors first. Once an error is found, no change more than two tokens further on makes the program acceptable or that error disappear. One token is not enough, even where the parser succeeds: in a map, after the end of a line, it looks for a name and a colon.", "quantifier": "all vectors of tokens that begin alike, all states of the parser, both modes", "why_tests_cant": "A test changes the end of a few programs; the claim covers every change behind every place, including in programs with errors, where the parser skips tokens to recover.", "anchors": ["src/parser.rs: Parser::parse", "src/parser.rs: Parser::check_next", "src/parser.rs: Parser::check_next_next", "src/parser.rs: Parser::peek_next_next", "src/parser.rs: Parser::synchronize", "src/parser.rs: Parser::declaration"]}
{"id": "C107", "title": "The scanner looks at most two clusters ahead", "statement": "When two sources begin alike and some rounds of the scanner on the first leave at least two clusters of that beginning unread, the same number of rounds on the second gives the same tokens, the same errors and the same state of the line, whatever follows the beginning. What was found stays: an accepted source yields a vector of tokens that begins with those tokens, and a rejected one reports those errors first. Every finished scan is a number of such rounds, after which only open blocks are closed. One cluster is not enough: after a digit and a dot the scanner looks at the cluster behind the dot.", "quantifier": "all sources of nonempty clusters that begin alike, all numbers of rounds, every table of letters", "why_tests_cant": "A test changes the end of a few texts; the claim covers every change behind every place in every text, including texts with errors and unfinished strings, comments and continued lines.", "anchors": ["src/scanner.rs: Scanner::scan_tokens", "src/scanner.rs: Scanner::scan_token", "src/scanner.rs: Scanner::peek_next_grapheme", "src/scanner.rs: Scanner::scan_number", "src/scanner.rs: Scanner::scan_string"]}
{"id": "C108", "title": "What has been read of a text is settled", "statement": "Take a beginning of a text of which the scanner leaves at least two clusters unread, the tokens it found there, and rounds of the top level of the parser that stop more than two tokens before the end of those tokens. Then for every text with that beginning: when it is accepted, its statements begin with the statements of those rounds, and nothing found so far was an error; when it is rejected, the errors of the scanner so far are reported first, and when there are none the report is either one of the scanner or begins with the errors of those rounds. So a text with an error in such a beginning is never accepted, whatever is added. In files and in lines of the REPL.", "quantifier": "all beginnings and all ways to go on, every table of letters, both modes", "why_tests_cant": "A test tries a few continuations; the claim covers all of them, also those that are indented, open strings or comments, or contain errors of their own.", "anchors": ["src/parser.rs: parse", "src/parser.rs: parse_repl_line", "src/parser.rs: Parser::parse", "src/scanner.rs: Scanner::scan_tokens"]}
