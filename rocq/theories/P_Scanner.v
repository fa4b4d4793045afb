(** Properties C01-C19, C55 and C56: scanning.

    Throughout, [gs] is the source as the list of its grapheme clusters, [U] the
    Unicode classification, and [es] the division of the source into lexical
    elements, which exists and is unique (C55). *)
From Coq Require Import ZArith Floats.SpecFloat.
From Verif Require Import Base F64 SpecNumber F64Facts NumberFacts Token Scanner SpecLex SpecLayout SpecScan Segment
  ScannerFacts ScanLex ScanLayout ScanUnique ScanProps ScanErrors ScanPairs ScanFinal.

Definition nl := s_nl.
Notation "a +++ b" := (String.append a b) (at level 60, right associativity).

(** Examples run on a sample text [s] as [segment s]. *)
Ltac sample := repeat split; try (apply check_valid; vm_compute; reflexivity);
  try apply sample_sane; try apply elements_lex; try (vm_compute; reflexivity).

(** ** C55: the division into lexical elements exists and is unique. *)
Theorem C55_lexing_unique : forall U gs,
  exists es, lexes U gs es /\ forall es', lexes U gs es' -> es' = es.
Proof. exact lexing_unique. Qed.
Print Assumptions C55_lexing_unique.
(** A line with a name, an operator, a number, and a comment. *)
Definition small_line : string := "ab >= 1.5 // c" +++ nl.
Example C55_example :
  lexes sample_unicode (segment small_line) (elements small_line) /\
  (forall es, lexes sample_unicode (segment small_line) es -> es = elements small_line) /\
  List.map elem_text (elements small_line) =
    [["a"; "b"]; [" "]; [">"; "="]; [" "]; ["1"; "."; "5"]; [" "]; ["/"; "/"; " "; "c"]; [nl]]%string%list.
Proof.
  split; [apply elements_lex|]. split; [|vm_compute; reflexivity]. intros es L.
  destruct (C55_lexing_unique sample_unicode (segment small_line)) as (x & _ & H).
  rewrite (H _ L). symmetry. apply H, elements_lex.
Qed.

(** ** The scanner computes the line-by-line specification. *)
Theorem C13_scan_is_layout : forall U gs es,
  sane U -> valid_source gs -> lexes U gs es ->
  scan_tokens U gs = match scan_spec gs es with
                     | None => Diverged
                     | Some r => Done r
                     end.
Proof. exact (fun U gs es Sn V L => scan_correct U Sn gs es V L). Qed.
Print Assumptions C13_scan_is_layout.

(** ** C01 *)
Theorem C01_scan_termination : forall U gs es,
  sane U -> valid_source gs -> lexes U gs es ->
  (scan_tokens U gs = Diverged <-> some_line between_levels es) /\
  (~ some_line between_levels es -> exists r, scan_tokens U gs = Done r).
Proof. exact (fun U gs es Sn V L => diverges_iff U Sn gs es V L). Qed.
Print Assumptions C01_scan_termination.

(** The outcome [Diverged] is the literal loop never being left. *)
Theorem C01_divergence_is_literal : forall s,
  match outdent_loop (sc_indentation s) s with
  | Diverged => forall n, outdent_iter n s = OutOfFuel
  | r => exists n, forall m, n <= m -> outdent_iter m s = r
  end.
Proof. exact outdent_loop_literal. Qed.
Print Assumptions C01_divergence_is_literal.

(** A block at width 2, a nested one at width 6, then a line at width 4. *)
Definition dedent_between : string :=
  "if a" +++ nl +++ "  b" +++ nl +++ "      c" +++ nl +++ "    d" +++ nl.
Example C01_example :
  sane sample_unicode /\ valid_source (segment dedent_between) /\
  lexes sample_unicode (segment dedent_between) (elements dedent_between) /\
  some_line between_levels (elements dedent_between).
Proof.
  sample. apply (some_line_at _ _ 3); [vm_compute; lia|].
  unfold between_levels, is_blank_line. repeat split.
  - vm_compute. discriminate.
  - vm_compute. intuition discriminate.
  - exists 2%N. vm_compute. auto.
Qed.
Theorem C01_scanning_always_returns_refuted :
  ~ (forall U gs, sane U -> valid_source gs -> exists r, scan_tokens U gs = Done r).
Proof. exact always_returns_refuted. Qed.
Print Assumptions C01_scanning_always_returns_refuted.

(** ** C02 *)
Theorem C02_scan_never_panics : forall U gs,
  sane U -> valid_source gs ->
  (exists r, scan_tokens U gs = Done r) \/ scan_tokens U gs = Diverged.
Proof. exact (fun U gs Sn V => never_panics U Sn gs V). Qed.
Print Assumptions C02_scan_never_panics.
Example C02_example :
  sane sample_unicode /\ valid_source (segment ("1.5." +++ nl +++ """a")).
Proof. sample. Qed.

(** ** C03 *)
Theorem C03_single_eof : forall U gs toks,
  sane U -> valid_source gs -> scan_tokens U gs = Done (Ok toks) ->
  exists pre l c, toks = pre ++ [mkToken Eof "" None None l c] /\
                  Forall (fun t => t_type t <> Eof) pre.
Proof. exact (fun U gs toks Sn V H => ends_in_eof U Sn gs toks V H). Qed.
Print Assumptions C03_single_eof.
Definition two_blocks : string :=
  "if a" +++ nl +++ "  b" +++ nl +++ "  if c" +++ nl +++ "    d(1)" +++ nl +++ "e" +++ nl.
Example C03_example :
  match scan_text two_blocks with
  | Done (Ok toks) => length toks = 20
  | _ => False
  end.
Proof. vm_compute. reflexivity. Qed.

(** ** C04 *)
Theorem C04_balanced_blocks : forall U gs toks,
  sane U -> valid_source gs -> scan_tokens U gs = Done (Ok toks) ->
  (forall pre post, toks = pre ++ post ->
     count_kind Outdent pre <= count_kind Indent pre) /\
  count_kind Outdent toks = count_kind Indent toks.
Proof. exact (fun U gs toks Sn V H => balanced U Sn gs toks V H). Qed.
Print Assumptions C04_balanced_blocks.
Example C04_example :
  match scan_text two_blocks with
  | Done (Ok toks) => count_kind Indent toks = 2
  | _ => False
  end.
Proof. vm_compute. reflexivity. Qed.

(** ** C05 *)
Theorem C05_token_positions : forall U gs es toks,
  sane U -> valid_source gs -> lexes U gs es -> scan_tokens U gs = Done (Ok toks) ->
  map tloc (filter from_text toks)
    = map (fun p => position (fst p)) (filter (fun p => is_tok (snd p)) (place nil es)) /\
  (forall t, In t toks -> t_type t = Indent \/ t_type t = Outdent ->
     (exists l before e r, In l (source_lines es) /\
        content (body l) = (before, e) :: r /\ tloc t = position before) \/
     (t_lexeme t = "" /\
      tloc t = mkLoc (loc_line (position gs)) (N.min 65534 (loc_column (position gs))))) /\
  (forall t, In t toks -> t_type t = Terminator ->
     exists l before, In l (source_lines es) /\ ending l = ByNewline before /\
       tloc t = position before).
Proof. exact (fun U gs es toks Sn V L H => positions U Sn gs es toks V L H). Qed.
Print Assumptions C05_token_positions.
(** After a string over three lines. *)
Example C05_example :
  match scan_text ("a = ""x" +++ nl +++ "y" +++ nl +++ "z"" b" +++ nl) with
  | Done (Ok toks) => map tloc toks =
      [mkLoc 1 1; mkLoc 1 3; mkLoc 1 5; mkLoc 3 4; mkLoc 3 5; mkLoc 4 1]
  | _ => False
  end.
Proof. vm_compute. reflexivity. Qed.

(** ** C06 *)
Theorem C06_lossless : forall U gs es toks,
  sane U -> valid_source gs -> lexes U gs es -> scan_tokens U gs = Done (Ok toks) ->
  gs = flat_map elem_text es /\
  (forall e, In e es -> is_illegal e = false) /\
  map t_lexeme (filter from_text toks)
    = map (fun e => sconcat (elem_text e)) (filter is_tok es).
Proof. exact (fun U gs es toks Sn V L H => lossless U Sn gs es toks V L H). Qed.
Print Assumptions C06_lossless.
Example C06_example :
  lexes sample_unicode (segment two_blocks) (elements two_blocks) /\
  length (elements two_blocks) = 25 /\ length (filter is_tok (elements two_blocks)) = 10.
Proof. sample. Qed.

(** ** C07 *)
Theorem C07_words : forall U gs toks t,
  sane U -> valid_source gs -> scan_tokens U gs = Done (Ok toks) ->
  In t toks -> is_word_kind (t_type t) = true ->
  exists before g cs rest,
    stands_for gs t before (g :: cs) rest /\
    starts_word U g /\ Forall (continues_word U) cs /\
    next_not (continues_word U) rest /\ word_kind (t_lexeme t) (t_type t) /\
    t_string t = None /\ t_float t = None.
Proof. exact (fun U gs toks t Sn V H => words U Sn gs toks t V H). Qed.
Print Assumptions C07_words.
Example C07_example :
  match scan_text "or orx _9" with
  | Done (Ok toks) => map t_type toks = [Or; Identifier; Identifier; Eof]
  | _ => False
  end.
Proof. vm_compute. reflexivity. Qed.

(** ** C08 (that [parse_f64] rounds correctly is C56) *)
Theorem C08_numbers : forall U gs toks t,
  sane U -> valid_source gs -> scan_tokens U gs = Done (Ok toks) ->
  In t toks -> t_type t = Number ->
  exists before text rest ds x,
    stands_for gs t before text rest /\ t_string t = None /\ t_float t = Some x /\
    parse_f64 (t_lexeme t) = Some x /\
    ds <> nil /\ Forall digit_cluster ds /\ next_not digit_cluster rest /\
    ((text = ds /\ ~ exists d r, rest = "." :: d :: r /\ digit_cluster d) \/
     exists fs, fs <> nil /\ Forall digit_cluster fs /\ text = ds ++ "." :: fs).
Proof. exact (fun U gs toks t Sn V H => numbers U Sn gs toks t V H). Qed.
Print Assumptions C08_numbers.
Example C08_example :
  match scan_text "12.50.x 7." with
  | Done (Ok toks) => map (fun t => (t_type t, t_lexeme t)) toks =
      [(Number, "12.50"); (Dot, "."); (Identifier, "x"); (Number, "7"); (Dot, "."); (Eof, "")]
  | _ => False
  end.
Proof. vm_compute. reflexivity. Qed.

(** ** C56: the value of a number token is the decimal it spells, correctly
    rounded to binary64; the rounding is unique. *)
Theorem C56_number_values : forall U gs toks t,
  sane U -> valid_source gs -> scan_tokens U gs = Done (Ok toks) ->
  In t toks -> t_type t = Number ->
  exists whole fraction x,
    whole <> EmptyString /\ digits whole /\ digits fraction /\
    (t_lexeme t = whole /\ fraction = EmptyString \/
     t_lexeme t = whole +++ String "." fraction /\ fraction <> EmptyString) /\
    t_float t = Some x /\
    rounded (digits_value (whole +++ fraction)) (String.length fraction) x.
Proof. exact (fun U gs toks t Sn V H => number_value U Sn gs toks t V H). Qed.
Print Assumptions C56_number_values.
Theorem C56_rounding_unique : forall m k f f',
  rounded m k f -> rounded m k f' -> f = f'.
Proof. exact rounded_unique. Qed.
Print Assumptions C56_rounding_unique.
Example C56_example :
  match scan_text "0.1 9007199254740993 9007199254740995 3" with
  | Done (Ok toks) => map t_float toks =
      [Some (S754_finite false 7205759403792794 (-56));
       Some (S754_finite false 4503599627370496 1);
       Some (S754_finite false 4503599627370498 1);
       Some (S754_finite false 6755399441055744 (-51)); None]
  | _ => False
  end.
Proof. vm_compute. reflexivity. Qed.

(** ** C09 *)
Theorem C09_strings : forall U gs toks t,
  sane U -> valid_source gs -> scan_tokens U gs = Done (Ok toks) ->
  In t toks -> t_type t = TString ->
  exists before text rest,
    stands_for gs t before (s_quote :: text ++ [s_quote]) rest /\
    ~ In s_quote text /\ t_string t = Some (sconcat text) /\ t_float t = None.
Proof. exact (fun U gs toks t Sn V H => strings U Sn gs toks t V H). Qed.
Print Assumptions C09_strings.
Theorem C09_unterminated_string : forall U gs a c rest toks,
  sane U -> valid_source gs -> lexes U gs (a ++ c) ->
  gs = text_of a ++ s_quote :: rest -> ~ In s_quote rest ->
  scan_tokens U gs <> Done (Ok toks).
Proof. exact (fun U gs a c rest toks Sn V L => unterminated U Sn gs a c rest toks V L). Qed.
Print Assumptions C09_unterminated_string.
Example C09_example :
  match scan_text ("""a\n // " +++ nl +++ """ b") with
  | Done (Ok toks) => map t_string toks = [Some ("a\n // " +++ nl); None; None]
  | _ => False
  end.
Proof. vm_compute. reflexivity. Qed.
Example C09_unterminated_example :
  let es := elements "a ""b" in
  lexes sample_unicode (segment "a ""b") (firstn 2 es ++ skipn 2 es) /\
  segment "a ""b" = text_of (firstn 2 es) ++ s_quote :: ["b"].
Proof. cbv zeta. rewrite firstn_skipn. sample. Qed.

(** ** C10 *)
Theorem C10_operators : forall U gs toks t,
  sane U -> valid_source gs -> scan_tokens U gs = Done (Ok toks) -> In t toks ->
  match t_type t with
  | Bang => exists b r, stands_for gs t b ["!"] r /\ next_not (eq "=") r
  | Equal => exists b r, stands_for gs t b ["="] r /\ next_not (eq "=") r
  | Less => exists b r, stands_for gs t b ["<"] r /\ next_not (eq "=") r
  | Greater => exists b r, stands_for gs t b [">"] r /\ next_not (eq "=") r
  | Slash => exists b r, stands_for gs t b ["/"] r /\ next_not (eq "/") r
  | BangEqual => exists b r, stands_for gs t b ["!"; "="] r
  | EqualEqual => exists b r, stands_for gs t b ["="; "="] r
  | LessEqual => exists b r, stands_for gs t b ["<"; "="] r
  | GreaterEqual => exists b r, stands_for gs t b [">"; "="] r
  | _ => True
  end.
Proof. exact (fun U gs toks t Sn V H => operators U Sn gs toks t V H). Qed.
Print Assumptions C10_operators.
Theorem C10_longest_match : forall U gs a c g k1 k2 rest,
  lexes U gs (a ++ c) ->
  (gs = text_of a ++ g :: "=" :: rest -> In (g, k1, k2) eq_operators ->
   exists c', c = Tok k2 [g; "="] None None :: c') /\
  (gs = text_of a ++ "/" :: "/" :: rest ->
   exists body r c', c = Comment ("/" :: "/" :: body) :: c' /\
     rest = body ++ r /\ ~ In s_nl body /\ (r = nil \/ exists r', r = s_nl :: r')).
Proof. exact longest_match. Qed.
Print Assumptions C10_longest_match.
Example C10_example :
  match scan_text "===!<=/ //=" with
  | Done (Ok toks) => map t_type toks = [EqualEqual; Equal; Bang; LessEqual; Slash; Eof]
  | _ => False
  end.
Proof. vm_compute. reflexivity. Qed.

(** ** C11 *)
Theorem C11_call_parentheses : forall U gs es toks,
  sane U -> valid_source gs -> lexes U gs es -> scan_tokens U gs = Done (Ok toks) ->
  (forall a c, es = a ++ Tok LeftParen ["("] None None :: c ->
     In (mk_at (if abuts (last_elem_of None a) then LeftParenAbutting else LeftParen)
               "(" None None (position (text_of a))) toks) /\
  (forall t, In t toks -> t_type t = LeftParen \/ t_type t = LeftParenAbutting ->
     exists a c, es = a ++ Tok LeftParen ["("] None None :: c /\
       t = mk_at (if abuts (last_elem_of None a) then LeftParenAbutting else LeftParen)
               "(" None None (position (text_of a))).
Proof. exact (fun U gs es toks Sn V L H => parentheses U Sn gs es toks V L H). Qed.
Print Assumptions C11_call_parentheses.
(** At the start, after a name, after a space, after a line continuation. *)
Example C11_example :
  match scan_text ("(f(1 (2 \" +++ nl +++ "(3") with
  | Done (Ok toks) => map t_type toks =
      [LeftParen; Identifier; LeftParenAbutting; Number; LeftParen; Number;
       LeftParenAbutting; Number; Eof]
  | _ => False
  end.
Proof. vm_compute. reflexivity. Qed.

(** ** C12 *)
Theorem C12_terminators : forall U gs es toks,
  sane U -> valid_source gs -> lexes U gs es -> scan_tokens U gs = Done (Ok toks) ->
  filter (fun t => tt_eqb (t_type t) Terminator) toks
    = flat_map terminator (source_lines es) /\
  forall l, In l (source_lines es) ->
    (terminator l <> nil <->
     (exists b, ending l = ByNewline b) /\ ~ is_blank_line l /\
     is_comment_line (content (body l)) = false /\ continuing (body l) = false).
Proof. exact (fun U gs es toks Sn V L H => terminators U Sn gs es toks V L H). Qed.
Print Assumptions C12_terminators.
Example C12_example :
  match scan_text ("a" +++ nl +++ nl +++ "b +" +++ nl +++ "c // d" +++ nl +++ "// e" +++ nl +++ "f") with
  | Done (Ok toks) => map t_type toks =
      [Identifier; Terminator; Identifier; Plus; Identifier; Terminator; Identifier; Eof]
  | _ => False
  end.
Proof. vm_compute. reflexivity. Qed.

(** ** C13: the tokens, line by line *)
Theorem C13_block_layout : forall U gs es toks,
  sane U -> valid_source gs -> lexes U gs es -> scan_tokens U gs = Done (Ok toks) ->
  toks = tokens_of nil (source_lines es)
         ++ closing (List.length (open_levels (source_lines es))) gs.
Proof. exact (fun U gs es toks Sn V L H => block_layout U Sn gs es toks V L H). Qed.
Print Assumptions C13_block_layout.
Example C13_example :
  match scan_text two_blocks with
  | Done (Ok toks) => map t_type toks =
      [If; Identifier; Terminator; Indent; Identifier; Terminator;
       If; Identifier; Terminator; Indent; Identifier; LeftParenAbutting; Number;
       RightParen; Terminator; Outdent; Outdent; Identifier; Terminator; Eof]
  | _ => False
  end.
Proof. vm_compute. reflexivity. Qed.

(** ** C14 *)
Theorem C14_blank_lines : forall U x es y n,
  sane U -> valid_source (x ++ y) -> lexes U x es -> whole_lines es ->
  same_result (scan_tokens U (x ++ y))
              (scan_tokens U (x ++ (repeat " " n ++ [s_nl]) ++ y)).
Proof. exact insert_blank. Qed.
Print Assumptions C14_blank_lines.
Example C14_example :
  valid_source (segment two_blocks ++ segment two_blocks) /\
  lexes sample_unicode (segment two_blocks) (elements two_blocks) /\
  whole_lines (elements two_blocks).
Proof.
  sample. right. exists (firstn 24 (elements two_blocks)). vm_compute. reflexivity.
Qed.

(** ** C15 *)
Theorem C15_comment_text : forall U gs gs' a txt txt' c,
  sane U -> valid_source gs -> valid_source gs' ->
  lexes U gs (a ++ Comment ("/" :: "/" :: txt) :: c) ->
  Forall (fun g => g <> s_nl) txt' ->
  gs' = text_of a ++ ("/" :: "/" :: txt') ++ text_of c ->
  same_result (scan_tokens U gs) (scan_tokens U gs') /\
  lexes U gs' (a ++ Comment ("/" :: "/" :: txt') :: c).
Proof. exact replace_comment. Qed.
Print Assumptions C15_comment_text.
Theorem C15_aligned_comment_line : forall U x es y n txt,
  sane U -> valid_source (x ++ y) -> valid_source txt ->
  Forall (fun g => g <> s_nl) txt ->
  lexes U x es -> whole_lines es ->
  is_joined (source_lines es) = false ->
  N.of_nat n = hd 0%N (open_levels (source_lines es)) -> (N.of_nat n <= u16_max)%N ->
  same_result (scan_tokens U (x ++ y))
    (scan_tokens U (x ++ (repeat " " n ++ "/" :: "/" :: txt ++ [s_nl]) ++ y)).
Proof. exact insert_comment. Qed.
Print Assumptions C15_aligned_comment_line.
Definition open_block : string := "if a" +++ nl +++ "  b" +++ nl.
Example C15_example :
  lexes sample_unicode (segment open_block) (elements open_block) /\
  whole_lines (elements open_block) /\
  is_joined (source_lines (elements open_block)) = false /\
  N.of_nat 2 = hd 0%N (open_levels (source_lines (elements open_block))).
Proof.
  sample. right. exists (firstn 7 (elements open_block)). vm_compute. reflexivity.
Qed.
Example C15_replace_example :
  let es := elements ("a // b" +++ nl +++ "c") in
  es = firstn 2 es ++ Comment ["/"; "/"; " "; "b"] :: skipn 3 es.
Proof. vm_compute. reflexivity. Qed.
(** Comment lines are not ignored in general: at another indentation they open
    and close blocks, and after a continued line they end the continuation. *)
Theorem C15_comment_lines_ignored_refuted :
  ~ (forall U x es y n txt,
       sane U -> valid_source (x ++ y) -> valid_source txt ->
       Forall (fun g => g <> s_nl) txt -> lexes U x es -> whole_lines es ->
       same_result (scan_tokens U (x ++ y))
         (scan_tokens U (x ++ (repeat " " n ++ "/" :: "/" :: txt ++ [s_nl]) ++ y))).
Proof. exact comment_lines_refuted. Qed.
Print Assumptions C15_comment_lines_ignored_refuted.

(** ** C16 *)
Theorem C16_fails_exactly : forall U gs es r,
  sane U -> valid_source gs -> lexes U gs es -> scan_tokens U gs = Done r ->
  ((exists errs, r = Err errs) <->
   (exists e, In e es /\ is_illegal e = true) \/ some_line below_levels es) /\
  (forall errs, r = Err errs -> errs = errors_of nil (source_lines es) /\ errs <> nil).
Proof. exact (fun U gs es r Sn V L H => fails_exactly U Sn gs es r V L H). Qed.
Print Assumptions C16_fails_exactly.
(** A tab, a stray backslash, an unknown cluster, a dedent below all levels. *)
Example C16_example :
  match scan_text ("if" +++ s_tab +++ "a \b" +++ nl +++ "    b #" +++ nl +++ "  c") with
  | Done (Err errs) => map c_loc errs = [mkLoc 1 4; mkLoc 1 6; mkLoc 2 8; mkLoc 3 4]
  | _ => False
  end.
Proof. vm_compute. reflexivity. Qed.

(** ** C17 *)
Theorem C17_error_positions : forall U gs es errs c,
  sane U -> valid_source gs -> lexes U gs es ->
  scan_tokens U gs = Done (Err errs) -> In c errs ->
  c_token c = None /\
  ((exists a e b, es = a ++ e :: b /\
      match e with
      | StrayBackslash _ => c_loc c = position (text_of a)
      | StrayTab | Stray _ => c_loc c = next_column (position (text_of a))
      | OpenString _ => b = nil /\ c_loc c =
          mkLoc (loc_line (position gs)) (N.min 65534 (loc_column (position gs)))
      | _ => False
      end) \/
   (exists pre l post a e b r,
      source_lines es = pre ++ l :: post /\ below_levels pre l /\
      content (body l) = (text_of a, e) :: r /\ es = a ++ e :: b /\
      c_loc c = next_column (position (text_of a)))).
Proof. exact (fun U gs es errs c Sn V L H I => error_positions U Sn gs es errs c V L H I). Qed.
Print Assumptions C17_error_positions.
Theorem C17_errors_point_at_offender_refuted :
  ~ (forall U gs es errs c,
       sane U -> valid_source gs -> lexes U gs es ->
       scan_tokens U gs = Done (Err errs) -> In c errs ->
       exists a e b, es = a ++ e :: b /\ c_loc c = position (text_of a) /\
                     is_illegal e = true).
Proof. exact error_positions_refuted. Qed.
Print Assumptions C17_errors_point_at_offender_refuted.

(** ** C18 *)
Theorem C18_crlf_rejected : forall U gs es toks,
  sane U -> u_alphabetic U 13 = false -> u_alphanumeric U 13 = false ->
  valid_source gs -> lexes U gs es -> scan_tokens U gs = Done (Ok toks) ->
  forall e, In e es -> In s_crlf (elem_text e) ->
  (exists t, e = Comment t) \/ (exists t s, e = Tok TString t s None).
Proof.
  exact (fun U gs es toks Sn A B V L H => crlf_rejected U Sn gs es toks A B V L H).
Qed.
Print Assumptions C18_crlf_rejected.
Example C18_example :
  match scan_text ("a // b" +++ s_crlf +++ "c") with Done (Ok _) => True | _ => False end.
Proof. vm_compute. exact I. Qed.
Theorem C18_crlf_behaves_like_lf_refuted :
  ~ (forall U x y, sane U -> valid_source (x ++ s_crlf :: y) ->
       same_result (scan_tokens U (x ++ s_crlf :: y)) (scan_tokens U (x ++ s_nl :: y))).
Proof. exact crlf_refuted. Qed.
Print Assumptions C18_crlf_behaves_like_lf_refuted.

(** ** C19 *)
Theorem C19_continued_lines : forall U gs es toks pre l bl l' post,
  sane U -> valid_source gs -> lexes U gs es -> scan_tokens U gs = Done (Ok toks) ->
  source_lines es = pre ++ l :: bl ++ l' :: post ->
  continued l -> Forall is_blank_line bl -> ~ is_blank_line l' ->
  terminator l = nil /\
  exists A outs B,
    toks = A ++ elems_tokens (before_next pre) (body l) ++ outs
             ++ elems_tokens (before_next (pre ++ l :: bl)) (body l') ++ B /\
    Forall (fun t => t_type t = Outdent) outs /\
    ((hd 0%N (open_levels (pre ++ l :: bl)) <= indentation (body l'))%N -> outs = nil).
Proof.
  exact (fun U gs es toks pre l bl l' post Sn V L H =>
           continuation U Sn gs es toks pre l bl l' post V L H).
Qed.
Print Assumptions C19_continued_lines.
Example C19_example :
  match scan_text ("a +" +++ nl +++ "  " +++ nl +++ "    b" +++ nl +++ "c") with
  | Done (Ok toks) => map t_type toks =
      [Identifier; Plus; Identifier; Terminator; Identifier; Eof]
  | _ => False
  end.
Proof. vm_compute. reflexivity. Qed.
(** A space after the operator defeats the continuation. *)
Theorem C19_operator_continues_refuted :
  ~ (forall U gs es toks pre l post p q,
       sane U -> valid_source gs -> lexes U gs es -> scan_tokens U gs = Done (Ok toks) ->
       source_lines es = pre ++ l :: post -> body l = p ++ q ->
       continuing p = true -> Forall (fun x => snd x = Space) q -> terminator l = nil).
Proof. exact continuation_refuted. Qed.
Print Assumptions C19_operator_continues_refuted.
