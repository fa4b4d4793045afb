(** src/scanner.rs: the scanner, function by function.

    The model runs on the list of grapheme clusters that
    [source.grapheme_indices(true)] yields; the source text is their
    concatenation.  [unicode] is the oracle for [char::is_alphabetic] and
    [char::is_alphanumeric]. *)
From Verif Require Import Base F64 Token.

Record unicode : Type := mkUnicode {
  u_alphabetic : N -> bool;     (* char::is_alphabetic *)
  u_alphanumeric : N -> bool    (* char::is_alphanumeric *)
}.

(** src/scanner.rs:42-61 *)
Record scanner : Type := mkScanner {
  sc_source : string  (* source: &'source str *);
  sc_tokens : list token  (* tokens: Vec<Token> *);
  sc_errors : list cause  (* errors: Vec<ParseErrorCause> *);
  sc_indentation : list N  (* indentation: Vec<u16>, the head is the Vec's last element *);
  sc_gi : list (nat * string)  (* grapheme_indices: the clusters still to be read, with byte offsets *);
  sc_start : nat  (* start: usize *);
  sc_current : nat  (* current: usize *);
  sc_line : N  (* line: u32 *);
  sc_column : N  (* column: u16 *);
  sc_start_column : N  (* start_column: u16 *);
  sc_eof : bool  (* eof: bool *);
  sc_bol_spaces : N  (* bol_spaces: u16 *);
  sc_is_bol : bool  (* is_bol: bool *);
  sc_only_comment : bool  (* only_comment_on_line: bool *);
  sc_is_cont : bool  (* is_line_continuation: bool *);
  sc_follow_cont : bool  (* following_line_continuation: bool *);
  sc_abutting : bool  (* is_abutting: bool *)
}.

(** Field updates. *)
Definition set_tokens (v : list token) (s : scanner) : scanner :=
  mkScanner (sc_source s) v (sc_errors s) (sc_indentation s) (sc_gi s)
    (sc_start s) (sc_current s) (sc_line s) (sc_column s) (sc_start_column s)
    (sc_eof s) (sc_bol_spaces s) (sc_is_bol s) (sc_only_comment s) (sc_is_cont
    s) (sc_follow_cont s) (sc_abutting s).
Definition set_errors (v : list cause) (s : scanner) : scanner :=
  mkScanner (sc_source s) (sc_tokens s) v (sc_indentation s) (sc_gi s)
    (sc_start s) (sc_current s) (sc_line s) (sc_column s) (sc_start_column s)
    (sc_eof s) (sc_bol_spaces s) (sc_is_bol s) (sc_only_comment s) (sc_is_cont
    s) (sc_follow_cont s) (sc_abutting s).
Definition set_indentation (v : list N) (s : scanner) : scanner :=
  mkScanner (sc_source s) (sc_tokens s) (sc_errors s) v (sc_gi s) (sc_start s)
    (sc_current s) (sc_line s) (sc_column s) (sc_start_column s) (sc_eof s)
    (sc_bol_spaces s) (sc_is_bol s) (sc_only_comment s) (sc_is_cont s)
    (sc_follow_cont s) (sc_abutting s).
Definition set_gi (v : list (nat * string)) (s : scanner) : scanner :=
  mkScanner (sc_source s) (sc_tokens s) (sc_errors s) (sc_indentation s) v
    (sc_start s) (sc_current s) (sc_line s) (sc_column s) (sc_start_column s)
    (sc_eof s) (sc_bol_spaces s) (sc_is_bol s) (sc_only_comment s) (sc_is_cont
    s) (sc_follow_cont s) (sc_abutting s).
Definition set_start (v : nat) (s : scanner) : scanner :=
  mkScanner (sc_source s) (sc_tokens s) (sc_errors s) (sc_indentation s)
    (sc_gi s) v (sc_current s) (sc_line s) (sc_column s) (sc_start_column s)
    (sc_eof s) (sc_bol_spaces s) (sc_is_bol s) (sc_only_comment s) (sc_is_cont
    s) (sc_follow_cont s) (sc_abutting s).
Definition set_current (v : nat) (s : scanner) : scanner :=
  mkScanner (sc_source s) (sc_tokens s) (sc_errors s) (sc_indentation s)
    (sc_gi s) (sc_start s) v (sc_line s) (sc_column s) (sc_start_column s)
    (sc_eof s) (sc_bol_spaces s) (sc_is_bol s) (sc_only_comment s) (sc_is_cont
    s) (sc_follow_cont s) (sc_abutting s).
Definition set_line (v : N) (s : scanner) : scanner :=
  mkScanner (sc_source s) (sc_tokens s) (sc_errors s) (sc_indentation s)
    (sc_gi s) (sc_start s) (sc_current s) v (sc_column s) (sc_start_column s)
    (sc_eof s) (sc_bol_spaces s) (sc_is_bol s) (sc_only_comment s) (sc_is_cont
    s) (sc_follow_cont s) (sc_abutting s).
Definition set_column (v : N) (s : scanner) : scanner :=
  mkScanner (sc_source s) (sc_tokens s) (sc_errors s) (sc_indentation s)
    (sc_gi s) (sc_start s) (sc_current s) (sc_line s) v (sc_start_column s)
    (sc_eof s) (sc_bol_spaces s) (sc_is_bol s) (sc_only_comment s) (sc_is_cont
    s) (sc_follow_cont s) (sc_abutting s).
Definition set_start_column (v : N) (s : scanner) : scanner :=
  mkScanner (sc_source s) (sc_tokens s) (sc_errors s) (sc_indentation s)
    (sc_gi s) (sc_start s) (sc_current s) (sc_line s) (sc_column s) v (sc_eof
    s) (sc_bol_spaces s) (sc_is_bol s) (sc_only_comment s) (sc_is_cont s)
    (sc_follow_cont s) (sc_abutting s).
Definition set_eof (v : bool) (s : scanner) : scanner :=
  mkScanner (sc_source s) (sc_tokens s) (sc_errors s) (sc_indentation s)
    (sc_gi s) (sc_start s) (sc_current s) (sc_line s) (sc_column s)
    (sc_start_column s) v (sc_bol_spaces s) (sc_is_bol s) (sc_only_comment s)
    (sc_is_cont s) (sc_follow_cont s) (sc_abutting s).
Definition set_bol_spaces (v : N) (s : scanner) : scanner :=
  mkScanner (sc_source s) (sc_tokens s) (sc_errors s) (sc_indentation s)
    (sc_gi s) (sc_start s) (sc_current s) (sc_line s) (sc_column s)
    (sc_start_column s) (sc_eof s) v (sc_is_bol s) (sc_only_comment s)
    (sc_is_cont s) (sc_follow_cont s) (sc_abutting s).
Definition set_is_bol (v : bool) (s : scanner) : scanner :=
  mkScanner (sc_source s) (sc_tokens s) (sc_errors s) (sc_indentation s)
    (sc_gi s) (sc_start s) (sc_current s) (sc_line s) (sc_column s)
    (sc_start_column s) (sc_eof s) (sc_bol_spaces s) v (sc_only_comment s)
    (sc_is_cont s) (sc_follow_cont s) (sc_abutting s).
Definition set_only_comment (v : bool) (s : scanner) : scanner :=
  mkScanner (sc_source s) (sc_tokens s) (sc_errors s) (sc_indentation s)
    (sc_gi s) (sc_start s) (sc_current s) (sc_line s) (sc_column s)
    (sc_start_column s) (sc_eof s) (sc_bol_spaces s) (sc_is_bol s) v
    (sc_is_cont s) (sc_follow_cont s) (sc_abutting s).
Definition set_is_cont (v : bool) (s : scanner) : scanner :=
  mkScanner (sc_source s) (sc_tokens s) (sc_errors s) (sc_indentation s)
    (sc_gi s) (sc_start s) (sc_current s) (sc_line s) (sc_column s)
    (sc_start_column s) (sc_eof s) (sc_bol_spaces s) (sc_is_bol s)
    (sc_only_comment s) v (sc_follow_cont s) (sc_abutting s).
Definition set_follow_cont (v : bool) (s : scanner) : scanner :=
  mkScanner (sc_source s) (sc_tokens s) (sc_errors s) (sc_indentation s)
    (sc_gi s) (sc_start s) (sc_current s) (sc_line s) (sc_column s)
    (sc_start_column s) (sc_eof s) (sc_bol_spaces s) (sc_is_bol s)
    (sc_only_comment s) (sc_is_cont s) v (sc_abutting s).
Definition set_abutting (v : bool) (s : scanner) : scanner :=
  mkScanner (sc_source s) (sc_tokens s) (sc_errors s) (sc_indentation s)
    (sc_gi s) (sc_start s) (sc_current s) (sc_line s) (sc_column s)
    (sc_start_column s) (sc_eof s) (sc_bol_spaces s) (sc_is_bol s)
    (sc_only_comment s) (sc_is_cont s) (sc_follow_cont s) v.

(** The pairs (byte offset, cluster) that [str::grapheme_indices] yields. *)
Fixpoint grapheme_indices (i : nat) (gs : list string) : list (nat * string) :=
  match gs with
  | nil => nil
  | g :: r => (i, g) :: grapheme_indices (i + slen g) r
  end.

(** src/scanner.rs:67-87 [Scanner::new] *)
Definition scanner_new (gs : list string) : scanner :=
  {| sc_source := sconcat gs;
     sc_tokens := nil;
     sc_errors := nil;
     sc_indentation := nil;
     sc_gi := grapheme_indices 0 gs;
     sc_start := 0;
     sc_current := 0;
     sc_line := 1;
     sc_column := 1;
     sc_start_column := 1;
     sc_eof := false;
     sc_bol_spaces := 0;
     sc_is_bol := true;
     sc_only_comment := false;
     sc_is_cont := false;
     sc_follow_cont := false;
     sc_abutting := false |}.

(** src/scanner.rs:14-39 [KEYWORDS] *)
Definition keywords : list (string * token_type) :=
  [("and", And); ("break", Break); ("class", Class); ("continue", Continue);
   ("else", Else); ("false", TFalse); ("for", For); ("fun", Fun); ("if", If);
   ("nil", Nil); ("or", Or); ("print", Print); ("return", Return);
   ("super", Super); ("this", This); ("true", TTrue); ("var", Var);
   ("while", While)].

(** [HashMap::get] on [KEYWORDS], used at src/scanner.rs:549 *)
Fixpoint lookup_keyword (l : list (string * token_type)) (w : string)
  : option token_type :=
  match l with
  | nil => None
  | (k, t) :: r => if String.eqb k w then Some t else lookup_keyword r w
  end.

(** src/scanner.rs:610-617 [is_digit] *)
Definition is_digit (g : string) : bool :=
  String.eqb g "0" || String.eqb g "1" || String.eqb g "2" ||
  String.eqb g "3" || String.eqb g "4" || String.eqb g "5" ||
  String.eqb g "6" || String.eqb g "7" || String.eqb g "8" ||
  String.eqb g "9".

Section Scan.
Variable U : unicode.

(** src/scanner.rs:619-625 [is_alphabetic] (95 is '_') *)
Definition is_alphabetic (g : string) : bool :=
  match first_char g with
  | None => true
  | Some c => u_alphabetic U c || (c =? 95)%N
  end.

(** src/scanner.rs:627-633 [is_alphanumeric] *)
Definition is_alphanumeric (g : string) : bool :=
  match first_char g with
  | None => true
  | Some c => u_alphanumeric U c || (c =? 95)%N
  end.

(** [self.grapheme_indices.peek()] without the index *)
Definition peek_grapheme (s : scanner) : option string :=
  match sc_gi s with
  | nil => None
  | (_, g) :: _ => Some g
  end.

(** src/scanner.rs:394-399 [peek_index] *)
Definition peek_index (s : scanner) : nat :=
  match sc_gi s with
  | nil => slen (sc_source s)
  | (i, _) :: _ => i
  end.

(** src/scanner.rs:402-414 [peek_next_grapheme] *)
Definition peek_next_grapheme (s : scanner) : option string :=
  match sc_gi s with
  | nil => None
  | _ :: nil => None
  | _ :: (_, g) :: _ => Some g
  end.

(** src/scanner.rs:416-421 [is_match] *)
Definition is_match (expected : string) (s : scanner) : bool :=
  match peek_grapheme s with
  | None => false
  | Some g => String.eqb g expected
  end.

(** src/scanner.rs:557-559 [is_at_end] *)
Definition is_at_end (s : scanner) : bool := sc_eof s.

(** src/scanner.rs:424-439 [advance] *)
Definition advance (s : scanner) : scanner * option (nat * string) :=
  let s1 := set_column (sat_succ16 (sc_column s)) s in
  match sc_gi s1 with
  | nil => (set_eof true s1, None)
  | (i, g) :: r => (set_current i (set_gi r s1), Some (i, g))
  end.

(** The statement [self.advance();] *)
Definition adv (s : scanner) : scanner := fst (advance s).

(** src/scanner.rs:374-392 [matches] *)
Definition matches (expected : string) (s : scanner) : scanner * bool :=
  if is_at_end s then (s, false)
  else match peek_grapheme s with
       | None => (s, false)
       | Some g => if negb (String.eqb g expected) then (s, false)
                   else (adv s, true)
       end.

(** src/scanner.rs:561-563 [error] *)
Definition error (c : cause) (s : scanner) : scanner :=
  set_errors (sc_errors s ++ [c]) s.

(** [self.tokens.push(token)] *)
Definition push_token (t : token) (s : scanner) : scanner :=
  set_tokens (sc_tokens s ++ [t]) s.

(** [&self.source[a..b]], panicking when out of range or off a boundary *)
Definition source_slice (s : scanner) (a b : nat) : outcome string :=
  match slice (sc_source s) a b with
  | None => Panicked "byte index is out of bounds or not a char boundary"
  | Some t => Done t
  end.

(** src/scanner.rs:566-577 [add_token] *)
Definition add_token (k : token_type) (s : scanner) : outcome scanner :=
  olet text <- source_slice s (sc_start s) (peek_index s) ;;
  Done (push_token
          (mkToken k text None None (sc_line s) (sc_start_column s)) s).

(** src/scanner.rs:579-594 [add_string_literal_token] *)
Definition add_string_literal_token (value : string) (start_line : N)
           (s : scanner) : outcome scanner :=
  olet text <- source_slice s (sc_start s) (peek_index s) ;;
  Done (push_token
          (mkToken TString text (Some value) None start_line
                   (sc_start_column s)) s).

(** src/scanner.rs:596-607 [add_number_literal_token] *)
Definition add_number_literal_token (value : f64) (s : scanner)
  : outcome scanner :=
  olet text <- source_slice s (sc_start s) (peek_index s) ;;
  Done (push_token
          (mkToken Number text None (Some value) (sc_line s)
                   (sc_start_column s)) s).

(** src/scanner.rs:310-323 [reset_line] *)
Definition reset_line (s : scanner) : scanner :=
  let line_was_blank := sc_is_bol s in
  let s1 := set_only_comment false
           (set_is_bol true
           (set_bol_spaces 0
           (set_column 1
           (set_line (sat_succ32 (sc_line s)) s)))) in
  if negb line_was_blank then
    set_follow_cont false (set_is_cont (sc_follow_cont s1) s1)
  else s1.

(** src/scanner.rs:345-359, the [while !self.indentation.is_empty()] loop.
    Structural recursion on the indentation stack (always called with
    [stack = sc_indentation s]).  In the case [Ordering::Less => {}] the loop
    body changes nothing, so the loop never exits: outcome [Diverged].
    [ScannerFacts.outdent_loop_literal] relates this to the literal loop. *)
Fixpoint outdent_loop (stack : list N) (s : scanner)
  : outcome (scanner * bool) :=
  match stack with
  | nil => Done (s, false)
  | amount :: rest =>
    match (amount ?= sc_bol_spaces s)%N with
    | Datatypes.Eq => Done (s, true)
    | Datatypes.Gt =>
      olet s1 <- add_token Outdent (set_indentation rest s) ;;
      outdent_loop rest s1
    | Datatypes.Lt => Diverged
    end
  end.

(** src/scanner.rs:327-370 [bol_indentation_tokens] *)
Definition bol_indentation_tokens (s : scanner) : outcome scanner :=
  if negb (sc_is_bol s) then Done s
  else
    let last_indentation := match sc_indentation s with
                            | nil => 0%N
                            | n :: _ => n
                            end in
    olet s1 <-
      match (sc_bol_spaces s ?= last_indentation)%N with
      | Datatypes.Eq => Done s
      | Datatypes.Gt =>
        if negb (sc_is_cont s) then
          olet s1 <- add_token Indent s ;;
          Done (set_indentation (sc_bol_spaces s1 :: sc_indentation s1) s1)
        else Done s
      | Datatypes.Lt =>
        olet p <- outdent_loop (sc_indentation s) s ;;
        let '(s1, found) := p in
        if negb found && (0 <? sc_bol_spaces s1)%N then
          Done (error (cause_new (mkLoc (sc_line s1) (sc_column s1))
                  "Outdent does not match any previous indentation level") s1)
        else Done s1
      end ;;
    Done (set_is_bol false s1).

(** The loop shared by [advance_to_eol] (src/scanner.rs:441-454) and the digit
    and identifier loops (492-502, 513-523, 534-544): advance while the next
    cluster satisfies [p].  Structural recursion on the remaining clusters
    (always called with [l = sc_gi s]). *)
Fixpoint advance_while (p : string -> bool) (l : list (nat * string))
         (s : scanner) : scanner :=
  match l with
  | nil => s
  | (_, g) :: r => if p g then advance_while p r (adv s) else s
  end.

(** src/scanner.rs:441-454 [advance_to_eol] *)
Definition advance_to_eol (s : scanner) : scanner :=
  advance_while (fun g => negb (String.eqb g s_nl)) (sc_gi s) s.

(** src/scanner.rs:460-471, the loop of [scan_string], by structural recursion
    on the remaining clusters.  When they run out, one more [advance] sets
    [eof]. *)
Fixpoint string_loop (l : list (nat * string)) (s : scanner) : scanner :=
  match l with
  | nil => adv s
  | (_, g) :: r =>
    if String.eqb g s_quote then s
    else
      let s1 := if String.eqb g s_nl
                then set_column 0 (set_line (sat_succ32 (sc_line s)) s)
                else s in
      string_loop r (adv s1)
  end.

(** src/scanner.rs:456-489 [scan_string] *)
Definition scan_string (s : scanner) : outcome scanner :=
  let start_index := peek_index s in
  let start_line := sc_line s in
  let s1 := string_loop (sc_gi s) s in
  if is_at_end s1 then
    let column := sat_pred (sc_column s1) in
    Done (error (cause_new (mkLoc (sc_line s1) column)
                           "Unterminated string.") s1)
  else
    let s2 := adv s1 in
    olet value <- source_slice s2 start_index (sc_current s2) ;;
    add_string_literal_token value start_line s2.

(** src/scanner.rs:491-531 [scan_number] *)
Definition scan_number (s : scanner) : outcome scanner :=
  let s1 := advance_while is_digit (sc_gi s) s in
  let s3 :=
    if is_match "." s1 then
      let s2 := match peek_next_grapheme s1 with
                | Some c => if is_digit c then adv s1 else s1
                | None => s1
                end in
      advance_while is_digit (sc_gi s2) s2
    else s1 in
  olet value <- source_slice s3 (sc_start s3) (peek_index s3) ;;
  match parse_f64 value with
  | None => Panicked ("Unable to parse string as f64: " ++ value)%string
  | Some number => add_number_literal_token number s3
  end.

(** src/scanner.rs:533-555 [scan_identifier] *)
Definition scan_identifier (s : scanner) : outcome scanner :=
  let s1 := advance_while is_alphanumeric (sc_gi s) s in
  olet text <- source_slice s1 (sc_start s1) (peek_index s1) ;;
  let token_type := match lookup_keyword keywords text with
                    | None => Identifier
                    | Some t => t
                    end in
  add_token token_type s1.

(** The arms of [scan_token] of the form
    [bol_indentation_tokens(); add_token(k); following_line_continuation = b].
    The result is (state, is_whitespace, following_line_continuation). *)
Definition scan_punct (k : token_type) (b : bool) (s : scanner)
  : outcome (scanner * bool * bool) :=
  olet s1 <- bol_indentation_tokens s ;;
  olet s2 <- add_token k s1 ;;
  Done (s2, false, b).

(** The arms for '!', '=', '<' and '>' (src/scanner.rs:190-223). *)
Definition scan_punct_eq (k2 k1 : token_type) (b : bool) (s : scanner)
  : outcome (scanner * bool * bool) :=
  olet s1 <- bol_indentation_tokens s ;;
  let '(s2, m) := matches "=" s1 in
  olet s3 <- add_token (if m then k2 else k1) s2 ;;
  Done (s3, false, b).

(** src/scanner.rs:241 [while self.matches(" ") {}], by structural recursion
    on the remaining clusters (called with [l = sc_gi s]). *)
Fixpoint match_spaces (l : list (nat * string)) (s : scanner) : scanner :=
  match l with
  | nil => s
  | _ :: r => let '(s1, m) := matches " " s in
              if m then match_spaces r s1 else s1
  end.

(** The [match grapheme_cluster] of [scan_token], src/scanner.rs:124-303.  The
    result is (state, is_whitespace, following_line_continuation). *)
Definition scan_cluster (g : string) (s : scanner)
  : outcome (scanner * bool * bool) :=
  if String.eqb g "(" then
    olet s1 <- bol_indentation_tokens s ;;
    olet s2 <- add_token (if sc_abutting s1 then LeftParenAbutting
                          else LeftParen) s1 ;;
    Done (s2, false, true)
  else if String.eqb g ")" then scan_punct RightParen false s
  else if String.eqb g "{" then scan_punct LeftBrace true s
  else if String.eqb g "}" then scan_punct RightBrace false s
  else if String.eqb g "[" then scan_punct LeftBracket true s
  else if String.eqb g "]" then scan_punct RightBracket false s
  else if String.eqb g ":" then scan_punct Colon true s
  else if String.eqb g "," then scan_punct Comma true s
  else if String.eqb g "." then scan_punct Dot true s
  else if String.eqb g "-" then scan_punct Minus true s
  else if String.eqb g "+" then scan_punct Plus true s
  else if String.eqb g ";" then scan_punct Semicolon false s
  else if String.eqb g "*" then scan_punct Star true s
  else if String.eqb g "!" then scan_punct_eq BangEqual Bang false s
  else if String.eqb g "=" then scan_punct_eq EqualEqual Equal false s
  else if String.eqb g "<" then scan_punct_eq LessEqual Less true s
  else if String.eqb g ">" then scan_punct_eq GreaterEqual Greater true s
  else if String.eqb g "/" then
    let was_bol := sc_is_bol s in
    olet s1 <- bol_indentation_tokens s ;;
    let '(s2, m) := matches "/" s1 in
    if m then Done (set_only_comment was_bol (advance_to_eol s2), false, false)
    else olet s3 <- add_token Slash s2 ;; Done (s3, false, true)
  else if String.eqb g s_backslash then
    let s1 := match_spaces (sc_gi s) s in
    let s2 := fst (matches s_cr s1) in
    let '(s3, m) := matches s_nl s2 in
    if m then Done (set_is_cont true (reset_line s3), false, false)
    else Done (error (cause_new (mkLoc (sc_line s3) (sc_start_column s3))
                        ("Unexpected character: '" ++ s_backslash ++ "'")) s3,
               false, false)
  else if String.eqb g s_tab then
    Done (error (cause_new (mkLoc (sc_line s) (sc_column s))
            "Illegal tab character; all whitespace must be spaces") s,
          true, false)
  else if String.eqb g " " then
    Done (if sc_is_bol s
          then set_bol_spaces (sat_succ16 (sc_bol_spaces s)) s else s,
          true, false)
  else if String.eqb g s_cr then Done (s, true, false)
  else if String.eqb g s_nl then
    let continue_line := sc_follow_cont s in
    olet s1 <-
      (if negb (sc_is_bol s) && negb continue_line && negb (sc_only_comment s)
       then add_token Terminator s else Done s) ;;
    Done (reset_line s1, true, false)
  else if String.eqb g s_quote then
    olet s1 <- bol_indentation_tokens s ;;
    olet s2 <- scan_string s1 ;;
    Done (s2, false, false)
  else
    olet s1 <- bol_indentation_tokens s ;;
    if is_digit g then
      olet s2 <- scan_number s1 ;; Done (s2, false, false)
    else if is_alphabetic g then
      olet s2 <- scan_identifier s1 ;; Done (s2, false, false)
    else
      Done (error (cause_new (mkLoc (sc_line s1) (sc_column s1))
                             ("Unexpected token: " ++ g)) s1, false, false).

(** src/scanner.rs:116-308 [scan_token] *)
Definition scan_token (s : scanner) : outcome scanner :=
  let s0 := set_start_column (sc_column s) s in
  match advance s0 with
  | (s1, None) => Done s1
  | (s1, Some (_, g)) =>
    olet r <- scan_cluster g s1 ;;
    let '(s2, is_whitespace, following) := r in
    Done (set_abutting (negb is_whitespace) (set_follow_cont following s2))
  end.

(** src/scanner.rs:90-94, the main loop of [scan_tokens], on fuel.  Every
    iteration consumes a cluster or sets [eof]. *)
Fixpoint scan_loop (fuel : nat) (s : scanner) : outcome scanner :=
  if is_at_end s then Done s
  else match fuel with
       | O => OutOfFuel
       | S n => olet s1 <- scan_token (set_start (peek_index s) s) ;;
                scan_loop n s1
       end.

(** src/scanner.rs:109-114 [close_all_blocks] *)
Fixpoint add_outdents (n : nat) (s : scanner) : outcome scanner :=
  match n with
  | O => Done s
  | S m => olet s1 <- add_token Outdent s ;; add_outdents m s1
  end.
Definition close_all_blocks (s : scanner) : outcome scanner :=
  let s1 := set_start_column (sat_pred (sc_column s)) s in
  add_outdents (length (sc_indentation s1)) s1.

(** src/scanner.rs:89-107 [scan_tokens] on an arbitrary scanner state; also
    returns the state left behind. *)
Definition scan_tokens_from (s : scanner)
  : outcome (scanner * result (list token) parse_error) :=
  olet s1 <- scan_loop (S (length (sc_gi s))) s ;;
  olet s2 <- close_all_blocks s1 ;;
  olet s3 <- add_token Eof s2 ;;
  let toks := sc_tokens s3 in
  let errs := sc_errors s3 in
  let s4 := set_errors nil (set_tokens nil s3) in
  Done (s4, match errs with
            | nil => Ok toks
            | _ :: _ => Err errs
            end).

(** [Scanner::new(source).scan_tokens()] *)
Definition scan_tokens (gs : list string)
  : outcome (result (list token) parse_error) :=
  olet p <- scan_tokens_from (scanner_new gs) ;; Done (snd p).

End Scan.
