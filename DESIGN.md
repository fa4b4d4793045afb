# A Rocq model of jtran/whitespace

The repository is a front end for a small indentation-sensitive language: a
scanner (`src/scanner.rs`), a recursive-descent parser (`src/parser.rs`), a
variable resolver (`src/resolver.rs`), a command line / REPL (`src/main.rs`), a
WebAssembly entry point (`src/wasm.rs`) and a demo page (`index.html`).

## Files (in `rocq/theories`)

| file | contents |
| --- | --- |
| `Base.v`, `Token.v`, `Ast.v`, `F64.v` | data types of the code: strings as byte strings, saturating integers, tokens, errors, syntax trees, f64 literals |
| `Scanner.v`, `Parser.v`, `Resolver.v`, `Show.v`, `Driver.v`, `Console.v`, `ParserApi.v`, `Equal.v` | the executable models, function by function |
| `Segment.v` | a concrete segmentation and classification, used only to run the models on literal texts |
| `Tests*.v` | the repository's own unit tests, replayed on the models (these are tests, not proofs; they guard the fidelity of the models) |
| `Spec*.v` | small specifications, independent of the models |
| `Str*.v`, `F64Facts.v`, `NumberFacts.v`, `Scan*.v`, `Parse*.v`, `Print*.v`, `AstInd.v`, `Resolve*.v`, `Show*.v`, `Driver*.v`, `Relabel*.v`, `Write*.v`, … (the others) | lemmas |
| `P_*.v` | only the property theorems, each with `Print Assumptions` and a non-vacuity example |

## How things are modelled

* **Text.** A Rust `&str` is a Coq `string` (a byte string, UTF-8).  The
  grapheme segmentation of `unicode-segmentation` is an input of the scanner
  model: the model runs on a list of clusters, the source is their
  concatenation.  Theorems quantify over *every* list of clusters that are
  non-empty and start on a character boundary (a superset of what the library
  can return).  Where the property depends on the segmentation itself (CR LF)
  the statement names the cluster.  The code-point classification
  (`char::is_alphabetic`, `is_alphanumeric`) is an oracle, universally
  quantified.
* **Numbers.** `u16`/`u32`/`u8` are `N` with saturation or truncation written
  out; `usize` indices are `nat` (no overflow: bounded by the size of a `Vec`).
  `f64` literals are `SpecFloat.spec_float`, and `str::parse::<f64>` is written
  out as correctly rounded conversion of a decimal, and proved to be that (C56).
* **Control.** `Result` is data.  A panic is the explicit outcome `Panicked`.  A
  `while` loop that can loop forever has the outcome `Diverged`; a lemma relates
  it to the literal loop body iterated any number of times.  All other
  loops/recursions run on fuel computed from the input, with the explicit
  outcome `OutOfFuel`, proved unreachable.
* **Parser.** State-and-error functions over `(current, in_loops)` with the token
  vector fixed.  Recursion goes through a record of recursive parsers indexed by
  fuel (`knot`); each Rust method is one definition.  Debug/release difference
  of `self.current - 1` on zero is a boolean parameter.
* **Resolver.** Scopes are lists of association lists (only lookup, insertion and
  length of the `HashMap`s are observable).  The AST cells are rebuilt
  functionally.
* **Rendering.** `{:#?}` of the derived `Debug` impls is written out (`Show.v`),
  as are serialization to a JavaScript value and the pretty printer of the demo
  page.  How Rust quotes a string and how Rust and JavaScript write a number are
  parameters (`formats`); theorems that need it assume that quoting can be
  undone and that different numbers are written differently (`quotes`,
  `writes_numbers` in `SpecDriver.v`).  `RustText.v` and `RustDigits.v` write these
  texts out (`<str as Debug>`, `<f64 as Debug>`, ECMAScript's `Number::toString`), after
  the documentation and source of the standard libraries, which are not in `/repo`;
  C92–C94 show that they meet the assumptions.  Left as parameters: which characters
  are grapheme extenders or unprintable, and the choice between two shortest decimals
  that are equally near.  The digits are found by a plain search, not by the
  algorithms the libraries use (Grisu, Dragon, Ryu), which are specified to give the
  same.
* **Comparison.** `Equal.v` writes the derived `PartialEq` out; of `IndexMap` it takes what
  the library documents (order of entries ignored).
* **Driver.** `run_file`, `run`, the REPL loop over a stream of reads, printing
  of errors, `parseString` and the page's `onChange`.  `Console.v` adds streams that
  fail after a number of bytes, and the choice of `main` between file and REPL.

Not modelled: stack depth (deep recursion overflows the native stack), memory,
the `unicode-segmentation` tables, `argparse`, file system errors other than
"cannot open" and "cannot read", the text
of panics on stderr, the internals of `serde_wasm_bindgen` (its default mapping
of Rust data to JavaScript values is taken from its documentation), DOM code of
the demo page, the interpreter (`src/value.rs` only provides the empty list of
native identifiers; the repository does not execute programs).

## Trusted base

* The Coq 8.16.1 kernel (with its virtual machine, used by `vm_compute` in the
  examples and witnesses).
* `Print Assumptions` under every theorem of the `P_*.v` files: every one is
  "Closed under the global context".  No axiom is used.
* That the models say what the code says.  They are written function by
  function next to the source; the unit tests of the repository are replayed on
  them (`Tests*.v`).
* The hypotheses of the theorems: `sane U` (newline is not alphanumeric),
  `valid_source gs` (clusters are non-empty, valid UTF-8 boundaries), the
  formats above, and in C73 `breaks_lines gs` (no cluster but LF and CR LF
  contains a newline), in C75 that a space is not alphanumeric, and in C76, C77
  `knows_ascii U` (ASCII is classified correctly).

## Property by property

* C01 model the outdent loop literally; prove exact characterisation of
  divergence by the line-layout specification; witness for the refutation.
* C02 invariant of the scanner state (positions are cluster boundaries, number
  lexemes have decimal shape), induction over the run.
* C03, C04 invariant over the run.
* C05–C13, C16, C17, C19 a lexical specification (`SpecLex`: a relation that cuts
  the cluster list into elements with positions) and a line layout specification
  (`SpecLayout`); the scanner is proved equal to layout after lexing; the
  individual properties are read off.
* C56 an integer statement of round-to-nearest-even (`SpecNumber.v`); division,
  shift and rounding steps of `SpecFloat` analysed one by one.
* C14, C15, C18 corollaries of the equivalence, about pairs of sources.
* C20 fuel bound and absence of panics by a Hoare-style predicate on parser
  functions, closed under all combinators, induction on fuel.
* C21, C22, C26–C28, C31–C34 grammar relation (`SpecGrammar`) between token lists
  and trees; soundness by the same Hoare-style induction; the tree properties by
  induction on derivations.
* C23 completeness for canonical derivations; printer.
* C24, C25 tree predicates, from the grammar or directly.
* C29 Hoare-style predicate on error positions plus induction over the top loop.
* C30 simulation between the two parser modes.
* C35, C36, C44–C46 induction on trees, for all paths.
* C37, C38, C39–C43, C47, C48 a declarative judgement on resolved trees
  (`SpecResolve`); soundness and completeness of the resolver for it.
* C49–C51 driver model, induction over histories.
* C52 decodability of rendered errors; C53 injectivity of serialization by
  induction over pairs of trees; C54 both printers lay out one kind of document,
  whose text determines it; trees are then compared document by document; C61
  the same for `{:#?}`.
* C55 the lexical relation is total and functional.
* C57–C59 read off the grammar; C60 both builds follow the same grammar.
* C62–C64 a table of expected tokens and messages per nonterminal (`SpecReject.v`),
  followed along the grammar.  Soundness: every error a parser function returns
  is the table's, by the combinators of `ParseReject.v`.  Completeness: what the
  grammar derives passes the table, so the table is deterministic
  (`RejectUnique.v`), and the parser always returns something.

* C65, C66 the checks of a tree in the order of evaluation, each with its context
  and message (`SpecCheck.v`), run up to the first that fails in each statement;
  one lemma per resolver function says that it makes exactly its checks, in
  either outcome (`ResolveExact.v`), by induction on trees.
* C67–C69 (and C63 for the executable) the specifications of the three phases in
  sequence (`SpecWhole.v`): every text has exactly one fate, and files, REPL
  sessions and `parseString` show it.
* C70, C71 syntax trees as data, and the three ways of showing data in general, as
  lines with indentation (`SpecData.v`); the printers of the models agree with
  them by induction on data and on trees (`DataFacts.v`).  `SpecWhole.v` uses
  these texts, so C67–C69 do not mention any function of the models.

* C72, C73 the messages are listed (`SpecMessages.v`); the table of syntax errors and
  the checks of the resolver are inspected for messages not in the list
  (`Messages.v`).  No listed message contains a newline, so the paragraphs of a
  thrown error can be separated.

* C74, C75 trees without positions (`SpecPlace.v`); derivations of the grammar, the
  table of syntax errors and the runs of the resolver are followed side by side
  on inputs that differ only in positions (`Relabel*.v`).  With C14, C15 and a
  lemma on inserted spaces (`ScanSpaces.v`), edits of the layout leave programs
  alone.

* C76, C77 a printer from trees to texts (`SpecWrite.v`), on top of the one from trees
  to tokens.  The written text is cut into lexemes again (`WriteScan.v`), exact
  decimals are read back as the same f64 (`WriteNumber.v`, with C56), so the
  tokens are the printed ones up to positions, and C23 and C74 apply.  For C77
  the spellings of the original source are used again.  A statement that starts
  with a map is written with the map open (`"a" : 1 , . x = 3`); one that starts
  with an empty map has no form without indentation (`FlatExact.v`, by induction
  over the grammar).

* C78 the end of the first program is replaced by the tokens of the second in its
  derivation (`Concat.v`); a line at the left margin closes what is open and is
  read as if nothing came before (`ConcatScan.v`); errors of the second program
  are carried over by the table of syntax errors (`ConcatFinal.v`).

* C79, C80, C81 the resolver is run side by side with itself on the tree with other names
  (`SpecRename.v`, `RenameResolve.v`) and on the tree without slots.  For C81 every
  rule is monotone in the names that are known, and the state is determined by
  the table and the context (`Rerun.v`).

* C84 is C79 for texts: two sources whose elements differ in names only have token
  streams that differ in names only (`RenameText.v`); such streams derive trees, and
  follow the table of errors to failures, that differ in names only (`RenameWords.v`,
  `RenameErrors.v`).  What a renamed text is: `SpecRenameText.v`.
* C82, C83 every derivation pays for the parts of its tree with the tokens it uses up
  (`SizeTree.v`); every line of the layout pays for its tokens and errors with its
  elements (`SizeScan.v`).  The tokens of nested parentheses are computed
  for all depths, and the parser run on them (`Nesting.v`).

* C85 a point between two statements is one where no block is open (indents minus
  outdents is zero along every derivation, `Prefix.v`), and the tokens before such a
  point are those of an initial part of the text, up to where the closing outdents
  stand (`PrefixScan.v`).  In a derivation the tokens of the next statement can be
  replaced by the end of the file.
* C86 the tokens of one line have at most one newline token, followed only by outdents
  and the end of the file (`OneLineFinal.v`); an induction over derivations shows what
  trees such tokens can have (`OneLine.v`).  The converse reuses the printer of C76
  (`OneLineText.v`).
* C87 the statements before the last one see only the first token of it, and, after a
  newline, whether the second is a colon (`Stable.v`); the tokens of whole lines do not
  depend on later lines, except for the closing outdents (`StableFinal.v`).
* C88 a second model of the command line and the REPL in which every write can fail
  (`Console.v`), related step by step to the first.
* C89 C78 for any number of pieces, with C30, C46 and C74, through the driver model
  (`Typed.v`).
* C90 the layout of lines goes from line to line (`Incremental.v`); C91 the lexical
  relation mentions the tables only for clusters of the text.
* C92 the quoted text is taken apart again by a small automaton (`TextFacts.v`).
* C93 decimals as ratios of integers, compared with `rounded` of `SpecNumber.v`
  (`TextNumber.v`); for the search, that the two neighbours of a number with n digits
  are the only ones that matter, and that seventeen digits always suffice
  (`DigitFacts.v`); the layout is compared with one that allows no needless zeros
  (`TextLayout.v`).  C94 puts the texts into C52, C54, C61 and C73.
* C95 (`Repair.v`, `RepairTop.v`, `RepairScan.v`, `P_Repair.v`): lines added at the end
  repair at most the last error.  `sim` relates the runs of the parser on two token lists
  that begin alike, up to a keyword at which recovery stopped: as long as the first run
  stays in front of the keyword the second does the same.  Every error but the last has
  such a keyword behind it.
* C96 (`ParserApi.v`, `Progress.v`, `Beyond.v`, `ApiTop.v`, `ApiMore.v`, `P_Api.v`): the parser
  and the scanner as objects.  `ParserApi.v` models a sequence of calls with the state left
  between them.  `Progress.v` counts what each parser function consumes on any token list, up to
  the first Eof or the end of the list; `Beyond.v` relates runs on lists that differ after Eof;
  `Missing.v` relates a run on a list without Eof to the run with one added.
  C97: a scanner at its end has a state that a further call leaves unchanged.
* C98, C99 (`SpecLike.v`, `LikeParse.v`, `LikeResolve.v`, `LikeTop.v`, `P_Like.v`): trees of the
  same form with related leaves, for any relations.  The parser run on two token lists of the same
  kinds makes the same steps; the resolver run on two such trees from related states does too.
* C100 (`Equal.v`, `SpecEqual.v`, `EqualFacts.v`, `EqualTop.v`, `P_Equal.v`): the derived `==` of
  tokens, trees and errors, and what it decides on what the scanner, parser and resolver return:
  identity up to the order of map entries.
* C101 (`SpecType.v`, `PrintType.v`, `TypeTree.v`, `TypeScan.v`, `TypeOrder.v`, `TypeExact.v`,
  `TypePlace.v`, `TypeFinal.v`, `P_Type.v`): exactly which trees are trees of texts, with a writer that
  indents where nothing else will do.
* C102 (`SpecOutline.v`, `Outline.v`, `P_Outline.v`): `outline` lists what the resolver can see of a statement, `cells` what
  it writes into one. `follow` is a resolver for outlines, used in the proof only: the resolver of the model, with its
  results read off by `cells`, equals it. Equal outlines therefore give equal results. C74 removes the positions.
* C103 (`SpecOwn.v`, `Own.v`, `P_Own.v`): the tokens of a program are divided among its statements
  (`own_tokens`, also C28_own_tokens): what follows a statement does not occur in it, which is shown by
  replacing it with an end of file. `faults` follows the resolver through a statement: every error it can give
  is at a location that `located` ties to a token.
* C104 (`SpecOrder.v`, `Order.v`, `OrderText.v`, `P_Order.v`): from the exact static rules of C48. A top-level statement sees the
  statements before it only as known global names, and knowing more names only allows more (`freer`, C81).
* C105 (`SpecAlpha.v`, `Alpha.v`, `AlphaText.v`, `AlphaLaws.v`, `P_Alpha.v`): alpha equivalence, defined on the outlines of C102. Two
  runs of the resolver keep their local scopes paired name by name with equal slots, and their global scopes equal.
* C106 (`SpecAhead.v`, `Ahead.v`, `AheadTop.v`, `P_Ahead.v`): two runs of every function of the parser, as in `Repair.v`,
  but with no keyword: they agree as long as the first stops more than two tokens before the vectors begin to differ.
* C107 (`SpecSteps.v`, `Steps.v`, `StepsGrow.v`, `P_Steps.v`): two runs of every function of the scanner on sources that
  begin alike; they agree as long as the first leaves two clusters of the beginning unread.  `StepsGrow.v` shows that
  tokens and errors are only ever added at the end.
* C108 (`Settled.v`, `P_Settled.v`): C106 and C107 joined: what scanner and parser found in a beginning of a text is found in
  every text with that beginning.

Anything that can only be shown in part carries the suffix `_partial`; a
property that is false of the code is accompanied by a `_refuted` theorem with a
concrete witness.

## How to read `seeded/LOG.jsonl`

Each line is one edit of a definition, tried in a copy outside this repository. The copy is built; where a proof breaks, it
is replaced in the copy and the build goes on. `lemmas_broken` are the proofs that broke. `theorems_failed` are the theorems
that broke themselves or that rest on a broken lemma, following names through the files. Most runs stop once such a theorem
is reached, so more theorems may fail than are listed.

A broken proof is not yet a false statement: the log shows that a proof notices the edit, not that the statement is false
under it. Where it is known that the statement may still hold, a `note` says so. A note also says where the edit did not
type check, left every theorem intact, or was tried in a smaller copy.
