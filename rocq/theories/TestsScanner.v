(** The unit tests of src/scanner.rs:635-1179, replayed on the model.  These are
    tests of the model's fidelity, not proofs of properties. *)
From Verif Require Import Base F64 Token Scanner Segment.

Example test_scan_single_tokens_1 :
  scan_text "!" =
  Done (Ok
  [mkToken Bang "!" None None 1 1;
   mkToken Eof "" None None 1 2]).
Proof. vm_compute. reflexivity. Qed.

Example test_scan_single_tokens_2 :
  scan_text "." =
  Done (Ok
  [mkToken Dot "." None None 1 1;
   mkToken Eof "" None None 1 2]).
Proof. vm_compute. reflexivity. Qed.

Example test_scan_single_tokens_3 :
  scan_text "=" =
  Done (Ok
  [mkToken Equal "=" None None 1 1;
   mkToken Eof "" None None 1 2]).
Proof. vm_compute. reflexivity. Qed.

Example test_scan_single_tokens_4 :
  scan_text "<" =
  Done (Ok
  [mkToken Less "<" None None 1 1;
   mkToken Eof "" None None 1 2]).
Proof. vm_compute. reflexivity. Qed.

Example test_scan_single_tokens_5 :
  scan_text "()" =
  Done (Ok
  [mkToken LeftParen "(" None None 1 1;
   mkToken RightParen ")" None None 1 2;
   mkToken Eof "" None None 1 3]).
Proof. vm_compute. reflexivity. Qed.

Example test_scan_single_tokens_6 :
  scan_text "{}" =
  Done (Ok
  [mkToken LeftBrace "{" None None 1 1;
   mkToken RightBrace "}" None None 1 2;
   mkToken Eof "" None None 1 3]).
Proof. vm_compute. reflexivity. Qed.

Example test_scan_single_tokens_7 :
  scan_text "[]" =
  Done (Ok
  [mkToken LeftBracket "[" None None 1 1;
   mkToken RightBracket "]" None None 1 2;
   mkToken Eof "" None None 1 3]).
Proof. vm_compute. reflexivity. Qed.

Example test_scan_single_tokens_8 :
  scan_text "
-" =
  Done (Ok
  [mkToken Minus "-" None None 2 1;
   mkToken Eof "" None None 2 2]).
Proof. vm_compute. reflexivity. Qed.

Example test_scan_double_tokens_1 :
  scan_text "==" =
  Done (Ok
  [mkToken EqualEqual "==" None None 1 1;
   mkToken Eof "" None None 1 3]).
Proof. vm_compute. reflexivity. Qed.

Example test_scan_double_tokens_2 :
  scan_text "!=" =
  Done (Ok
  [mkToken BangEqual "!=" None None 1 1;
   mkToken Eof "" None None 1 3]).
Proof. vm_compute. reflexivity. Qed.

Example test_scan_double_tokens_3 :
  scan_text "<=" =
  Done (Ok
  [mkToken LessEqual "<=" None None 1 1;
   mkToken Eof "" None None 1 3]).
Proof. vm_compute. reflexivity. Qed.

Example test_scan_comments_1 :
  scan_text "// line comment" =
  Done (Ok
  [mkToken Eof "" None None 1 16]).
Proof. vm_compute. reflexivity. Qed.

Example test_scan_comments_2 :
  scan_text "// line comment
1" =
  Done (Ok
  [mkToken Number "1" None (parse_f64 "1.0") 2 1;
   mkToken Eof "" None None 2 2]).
Proof. vm_compute. reflexivity. Qed.

Example test_scan_comments_3 :
  scan_text "1 // line comment
" =
  Done (Ok
  [mkToken Number "1" None (parse_f64 "1.0") 1 1;
   mkToken Terminator "
" None None 1 18;
   mkToken Eof "" None None 2 1]).
Proof. vm_compute. reflexivity. Qed.

Example test_scan_string_1 :
  scan_text """hello""" =
  Done (Ok
  [mkToken TString """hello""" (Some "hello") None 1 1;
   mkToken Eof "" None None 1 8]).
Proof. vm_compute. reflexivity. Qed.

Example test_scan_multiline_string_1 :
  scan_text """hello
there""" =
  Done (Ok
  [mkToken TString """hello
there""" (Some "hello
there") None 1 1;
   mkToken Eof "" None None 2 7]).
Proof. vm_compute. reflexivity. Qed.

Example test_scan_number_1 :
  scan_text "9.5" =
  Done (Ok
  [mkToken Number "9.5" None (parse_f64 "9.5") 1 1;
   mkToken Eof "" None None 1 4]).
Proof. vm_compute. reflexivity. Qed.

Example test_scan_number_2 :
  scan_text "7" =
  Done (Ok
  [mkToken Number "7" None (parse_f64 "7.0") 1 1;
   mkToken Eof "" None None 1 2]).
Proof. vm_compute. reflexivity. Qed.

Example test_scan_number_3 :
  scan_text "144.25." =
  Done (Ok
  [mkToken Number "144.25" None (parse_f64 "144.25") 1 1;
   mkToken Dot "." None None 1 7;
   mkToken Eof "" None None 1 8]).
Proof. vm_compute. reflexivity. Qed.

Example test_scan_identifier_1 :
  scan_text "foo" =
  Done (Ok
  [mkToken Identifier "foo" None None 1 1;
   mkToken Eof "" None None 1 4]).
Proof. vm_compute. reflexivity. Qed.

Example test_scan_identifier_2 :
  scan_text "foo_bar2" =
  Done (Ok
  [mkToken Identifier "foo_bar2" None None 1 1;
   mkToken Eof "" None None 1 9]).
Proof. vm_compute. reflexivity. Qed.

Example test_scan_identifier_3 :
  scan_text "π" =
  Done (Ok
  [mkToken Identifier "π" None None 1 1;
   mkToken Eof "" None None 1 2]).
Proof. vm_compute. reflexivity. Qed.

Example test_scan_identifier_4 :
  scan_text "y̆" =
  Done (Ok
  [mkToken Identifier "y̆" None None 1 1;
   mkToken Eof "" None None 1 2]).
Proof. vm_compute. reflexivity. Qed.

Example test_scan_keywords_1 :
  scan_text "and" =
  Done (Ok
  [mkToken And "and" None None 1 1;
   mkToken Eof "" None None 1 4]).
Proof. vm_compute. reflexivity. Qed.

Example test_scan_keywords_2 :
  scan_text "break" =
  Done (Ok
  [mkToken Break "break" None None 1 1;
   mkToken Eof "" None None 1 6]).
Proof. vm_compute. reflexivity. Qed.

Example test_scan_keywords_3 :
  scan_text "class" =
  Done (Ok
  [mkToken Class "class" None None 1 1;
   mkToken Eof "" None None 1 6]).
Proof. vm_compute. reflexivity. Qed.

Example test_scan_keywords_4 :
  scan_text "continue" =
  Done (Ok
  [mkToken Continue "continue" None None 1 1;
   mkToken Eof "" None None 1 9]).
Proof. vm_compute. reflexivity. Qed.

Example test_scan_keywords_5 :
  scan_text "else" =
  Done (Ok
  [mkToken Else "else" None None 1 1;
   mkToken Eof "" None None 1 5]).
Proof. vm_compute. reflexivity. Qed.

Example test_scan_keywords_6 :
  scan_text "false" =
  Done (Ok
  [mkToken TFalse "false" None None 1 1;
   mkToken Eof "" None None 1 6]).
Proof. vm_compute. reflexivity. Qed.

Example test_scan_keywords_7 :
  scan_text "for" =
  Done (Ok
  [mkToken For "for" None None 1 1;
   mkToken Eof "" None None 1 4]).
Proof. vm_compute. reflexivity. Qed.

Example test_scan_keywords_8 :
  scan_text "fun" =
  Done (Ok
  [mkToken Fun "fun" None None 1 1;
   mkToken Eof "" None None 1 4]).
Proof. vm_compute. reflexivity. Qed.

Example test_scan_keywords_9 :
  scan_text "if" =
  Done (Ok
  [mkToken If "if" None None 1 1;
   mkToken Eof "" None None 1 3]).
Proof. vm_compute. reflexivity. Qed.

Example test_scan_keywords_10 :
  scan_text "nil" =
  Done (Ok
  [mkToken Nil "nil" None None 1 1;
   mkToken Eof "" None None 1 4]).
Proof. vm_compute. reflexivity. Qed.

Example test_scan_keywords_11 :
  scan_text "or" =
  Done (Ok
  [mkToken Or "or" None None 1 1;
   mkToken Eof "" None None 1 3]).
Proof. vm_compute. reflexivity. Qed.

Example test_scan_keywords_12 :
  scan_text "print" =
  Done (Ok
  [mkToken Print "print" None None 1 1;
   mkToken Eof "" None None 1 6]).
Proof. vm_compute. reflexivity. Qed.

Example test_scan_keywords_13 :
  scan_text "return" =
  Done (Ok
  [mkToken Return "return" None None 1 1;
   mkToken Eof "" None None 1 7]).
Proof. vm_compute. reflexivity. Qed.

Example test_scan_keywords_14 :
  scan_text "this" =
  Done (Ok
  [mkToken This "this" None None 1 1;
   mkToken Eof "" None None 1 5]).
Proof. vm_compute. reflexivity. Qed.

Example test_scan_keywords_15 :
  scan_text "true" =
  Done (Ok
  [mkToken TTrue "true" None None 1 1;
   mkToken Eof "" None None 1 5]).
Proof. vm_compute. reflexivity. Qed.

Example test_scan_keywords_16 :
  scan_text "var" =
  Done (Ok
  [mkToken Var "var" None None 1 1;
   mkToken Eof "" None None 1 4]).
Proof. vm_compute. reflexivity. Qed.

Example test_scan_keywords_17 :
  scan_text "while" =
  Done (Ok
  [mkToken While "while" None None 1 1;
   mkToken Eof "" None None 1 6]).
Proof. vm_compute. reflexivity. Qed.

Example test_scan_whitespace_indentation_as_blocks_1 :
  scan_text "one
  two
  three
four
" =
  Done (Ok
  [mkToken Identifier "one" None None 1 1;
   mkToken Terminator "
" None None 1 4;
   mkToken Indent "t" None None 2 3;
   mkToken Identifier "two" None None 2 3;
   mkToken Terminator "
" None None 2 6;
   mkToken Identifier "three" None None 3 3;
   mkToken Terminator "
" None None 3 8;
   mkToken Outdent "f" None None 4 1;
   mkToken Identifier "four" None None 4 1;
   mkToken Terminator "
" None None 4 5;
   mkToken Eof "" None None 5 1]).
Proof. vm_compute. reflexivity. Qed.

Example test_scan_var_declaration_without_semicolon_1 :
  scan_text "var x = 1
" =
  Done (Ok
  [mkToken Var "var" None None 1 1;
   mkToken Identifier "x" None None 1 5;
   mkToken Equal "=" None None 1 7;
   mkToken Number "1" None (parse_f64 "1.0") 1 9;
   mkToken Terminator "
" None None 1 10;
   mkToken Eof "" None None 2 1]).
Proof. vm_compute. reflexivity. Qed.

Example test_scan_var_declaration_without_semicolon_2 :
  scan_text "var x = 1 + 2
" =
  Done (Ok
  [mkToken Var "var" None None 1 1;
   mkToken Identifier "x" None None 1 5;
   mkToken Equal "=" None None 1 7;
   mkToken Number "1" None (parse_f64 "1.0") 1 9;
   mkToken Plus "+" None None 1 11;
   mkToken Number "2" None (parse_f64 "2.0") 1 13;
   mkToken Terminator "
" None None 1 14;
   mkToken Eof "" None None 2 1]).
Proof. vm_compute. reflexivity. Qed.

Example test_scan_backslash_as_line_continuation_1 :
  scan_text "one \
  two
" =
  Done (Ok
  [mkToken Identifier "one" None None 1 1;
   mkToken Identifier "two" None None 2 3;
   mkToken Terminator "
" None None 2 6;
   mkToken Eof "" None None 3 1]).
Proof. vm_compute. reflexivity. Qed.

Example test_scan_backslash_as_line_continuation_2 :
  scan_text "one \  
  two
" =
  Done (Ok
  [mkToken Identifier "one" None None 1 1;
   mkToken Identifier "two" None None 2 3;
   mkToken Terminator "
" None None 2 6;
   mkToken Eof "" None None 3 1]).
Proof. vm_compute. reflexivity. Qed.

Example test_scan_backslash_line_continuation_with_blank_lines_1 :
  scan_text "one \


  two
" =
  Done (Ok
  [mkToken Identifier "one" None None 1 1;
   mkToken Identifier "two" None None 4 3;
   mkToken Terminator "
" None None 4 6;
   mkToken Eof "" None None 5 1]).
Proof. vm_compute. reflexivity. Qed.

Example test_scan_backslash_without_newline_is_an_error_1 :
  scan_text "one \ two" =
  Done (Err [cause_new (mkLoc 1 5) "Unexpected character: '\'"]).
Proof. vm_compute. reflexivity. Qed.

Example test_scan_trailing_binary_operator_as_line_continuation_1 :
  scan_text "one +
  two
" =
  Done (Ok
  [mkToken Identifier "one" None None 1 1;
   mkToken Plus "+" None None 1 5;
   mkToken Identifier "two" None None 2 3;
   mkToken Terminator "
" None None 2 6;
   mkToken Eof "" None None 3 1]).
Proof. vm_compute. reflexivity. Qed.

Example test_scan_trailing_binary_operator_line_continuation_with_blank_lines_1 :
  scan_text "one +


  two
" =
  Done (Ok
  [mkToken Identifier "one" None None 1 1;
   mkToken Plus "+" None None 1 5;
   mkToken Identifier "two" None None 4 3;
   mkToken Terminator "
" None None 4 6;
   mkToken Eof "" None None 5 1]).
Proof. vm_compute. reflexivity. Qed.
