(** Properties of the texts the trees and errors are printed with (src/main.rs: run, src/wasm.rs: parse_string,
    index.html): quoted strings (C92), numbers (C93), and the theorems of P_Driver.v and P_Messages.v with these texts
    in place of assumptions about them (C94).

    [rust_str], [rust_num], [js_num]: RustText.v.  [shortest_digits up]: RustDigits.v; [up] says how to choose between
    two decimals equally near.  [esc] is the table of characters that are escaped. *)
From Coq Require Import ZArith Floats.SpecFloat.
From Verif Require Import Base F64 Token Ast Scanner Parser Resolver Show Driver Segment TestsParser
  SpecLex SpecScan SpecNumber SpecResolve SpecShow SpecDriver SpecMessages SpecText RustText RustDigits
  ScanFinal ResolveFinal ResolveProps DriverProps TextFacts TextNumber DigitFacts TextLayout TextProps P_Driver P_Messages.
Import SpecNumber.
Local Open Scope string_scope.

(** ** C92 *)
(** A string is written character by character between quotation marks, whatever the characters. *)
Theorem C92_quoted_text : forall esc cs, Forall scalar cs ->
  exists ts, Forall2 (quoted esc) cs ts /\ rust_str esc (utf8 cs) = s_quote ++ sconcat ts ++ s_quote.
Proof. exact rust_str_text. Qed.
Print Assumptions C92_quoted_text.
Theorem C92_one_way : forall esc c t t', quoted esc c t -> quoted esc c t' -> t = t'.
Proof. exact quoted_fun. Qed.
Print Assumptions C92_one_way.
(** Quoted text can be told from what follows it, and read back. *)
Theorem C92_read_back : forall esc s t r r', rust_str esc s ++ r = rust_str esc t ++ r' -> s = t /\ r = r'.
Proof. exact (fun esc => proj1 (rust_str_quotes esc)). Qed.
Print Assumptions C92_read_back.
(** It has no line break in it. *)
Theorem C92_one_line : forall esc s, lacks [ascii_of_nat 10; ascii_of_nat 13] (rust_str esc s) = true.
Proof. exact (fun esc s => bytes_lacks _ (rust_str_one_line esc s)). Qed.
Print Assumptions C92_one_line.
(** Printable ASCII is left as it is, control characters are escaped. *)
Definition ascii_table (c : N) : bool := (c <? 32)%N || (c =? 127)%N.
Example C92_example :
  Forall scalar [97; 34; 9; 233; 128512; 27; 92; 10]%N /\
  rust_str ascii_table (utf8 [97; 34; 9; 233; 128512; 27; 92; 10]%N) =
    s_quote ++ "a" ++ s_backslash ++ s_quote ++ s_backslash ++ "t" ++ encode 233 ++ encode 128512 ++
    s_backslash ++ "u{1b}" ++ s_backslash ++ s_backslash ++ s_backslash ++ "n" ++ s_quote /\
  encode 233 = String (ascii_of_nat 195) (String (ascii_of_nat 169) "").
Proof. parts; try (vm_compute; reflexivity). repeat (apply Forall_cons; [unfold scalar; lia|]). apply Forall_nil. Qed.

(** ** C93 *)
(** The digits of a number in a program: at most seventeen, as few as can be, and the nearest of those. *)
Theorem C93_shortest : forall up m e, literal (S754_finite false m e) ->
  shortest m e (shortest_digits up m e) /\ (String.length (fst (shortest_digits up m e)) <= 17)%nat.
Proof. exact shortest_literal. Qed.
Print Assumptions C93_shortest.
(** Whoever finds digits that read back prints different numbers differently, without a colon, comma, quotation mark or
    line break. *)
Theorem C93_rust_numbers : forall digs, finds digs -> writes_numbers (rust_num digs).
Proof. exact rust_num_writes. Qed.
Print Assumptions C93_rust_numbers.
Theorem C93_js_numbers : forall digs, finds digs -> writes_numbers (js_num digs).
Proof. exact js_num_writes. Qed.
Print Assumptions C93_js_numbers.
(** The shortest digits are such. *)
Theorem C93_found : forall up, finds (shortest_digits up).
Proof. exact shortest_digits_finds. Qed.
Print Assumptions C93_found.
(** Where the digits are put. *)
Theorem C93_rust_text : forall digs m e, shortest m e (digs m e) ->
  let x := S754_finite false m e in
  if SFltb x (round_decimal (10 ^ 16) 0) && SFleb (round_decimal 1 4) x
  then plain_text (fst (digs m e)) (snd (digs m e)) true (rust_num digs x)
  else exponent_text (fst (digs m e)) (snd (digs m e)) "" (rust_num digs x).
Proof. exact rust_text. Qed.
Print Assumptions C93_rust_text.
Theorem C93_js_text : forall digs m e, shortest m e (digs m e) ->
  let x := S754_finite false m e in
  if (-6 <? snd (digs m e))%Z && (snd (digs m e) <=? 21)%Z
  then plain_text (fst (digs m e)) (snd (digs m e)) false (js_num digs x)
  else exponent_text (fst (digs m e)) (snd (digs m e)) "+" (js_num digs x).
Proof. exact js_text. Qed.
Print Assumptions C93_js_text.
Theorem C93_one_text : forall d p point plus t t',
  (plain_text d p point t -> plain_text d p point t' -> t = t') /\
  (exponent_text d p plus t -> exponent_text d p plus t' -> t = t').
Proof. exact (fun d p point plus t t' => conj (plain_unique d p point t t') (exponent_unique d p plus t t')). Qed.
Print Assumptions C93_one_text.
(** The literals without digits to search for. *)
Theorem C93_zero_and_infinity : forall digs x, literal x ->
  (exists m e, x = S754_finite false m e) \/
  x = S754_zero false /\ rust_num digs x = "0.0" /\ js_num digs x = "0" \/
  x = S754_infinity false /\ rust_num digs x = "inf" /\ js_num digs x = "Infinity".
Proof. exact zero_and_infinity. Qed.
Print Assumptions C93_zero_and_infinity.
(** From 0.0001 up and below 1e16 the text is itself a literal for the number; elsewhere it need not be one. *)
Theorem C93_paste_back : forall digs m e, finds digs -> literal (S754_finite false m e) ->
  SFleb (round_decimal (10 ^ 16) 0) (S754_finite false m e) = false ->
  SFltb (S754_finite false m e) (round_decimal 1 4) = false ->
  parse_f64 (rust_num digs (S754_finite false m e)) = Some (S754_finite false m e).
Proof. exact rust_num_parse. Qed.
Print Assumptions C93_paste_back.
Theorem C93_paste_back_refuted : ~ (forall digs x, finds digs -> literal x -> parse_f64 (rust_num digs x) = Some x).
Proof. exact paste_back_refuted. Qed.
Print Assumptions C93_paste_back_refuted.
Definition in_rust (s : string) : option string := option_map (rust_num (shortest_digits true)) (parse_f64 s).
Definition in_js (s : string) : option string := option_map (js_num (shortest_digits true)) (parse_f64 s).
Example C93_example :
  in_rust "0.1" = Some "0.1" /\ in_js "0.10" = Some "0.1" /\ in_rust "3" = Some "3.0" /\ in_js "3.0" = Some "3" /\
  in_rust "0" = Some "0.0" /\ in_js "0" = Some "0" /\
  in_rust "9007199254740993" = Some "9007199254740992.0" /\
  in_rust "10000000000000000" = Some "1e16" /\ in_js "10000000000000000" = Some "10000000000000000" /\
  in_rust "0.0001" = Some "0.0001" /\ in_rust "0.00001234" = Some "1.234e-5" /\
  in_js "0.000001" = Some "0.000001" /\ in_js "0.00000012" = Some "1.2e-7" /\
  in_js "1234567890123456789012" = Some "1.2345678901234568e+21".
Proof. parts; vm_compute; reflexivity. Qed.
(** Between two decimals equally near the choice is left open. *)
Example C93_tie :
  in_rust "1125899906842624.25" = Some "1125899906842624.3" /\
  option_map (rust_num (shortest_digits false)) (parse_f64 "1125899906842624.25") = Some "1125899906842624.2".
Proof. parts; vm_compute; reflexivity. Qed.

(** ** C94 *)
(** [whitespace FILE] prints the same for two sources only if they have the same resolved tree. *)
Theorem C94_output_determines_tree : forall U oc esc up up' name name' gs gs', sane U -> valid_source gs -> valid_source gs' ->
  let F := real_formats esc (shortest_digits up) (shortest_digits up') in
  p_end (main_file U oc F name (Contents gs)) = Exited 0 ->
  p_out (main_file U oc F name (Contents gs)) = p_out (main_file U oc F name' (Contents gs')) ->
  exists l, resolves U oc gs l /\ resolves U oc gs' l.
Proof. exact real_output. Qed.
Print Assumptions C94_output_determines_tree.
(** The text thrown by [parse_string] determines the errors. *)
Theorem C94_thrown_text : forall U oc esc up up' gs gs' t, sane U -> valid_source gs -> valid_source gs' ->
  breaks_lines gs -> breaks_lines gs' ->
  let F := real_formats esc (shortest_digits up) (shortest_digits up') in
  parse_string U oc F gs = Done (Err t) -> parse_string U oc F gs' = Done (Err t) ->
  exists cs, fails U oc gs cs /\ fails U oc gs' cs.
Proof. exact real_thrown. Qed.
Print Assumptions C94_thrown_text.
(** The page shows the same for two accepted sources exactly if the trees differ in booleans at most. *)
Theorem C94_page : forall U oc esc up up' gs gs' l l', sane U -> valid_source gs -> valid_source gs' ->
  let F := real_formats esc (shortest_digits up) (shortest_digits up') in
  resolves U oc gs l -> resolves U oc gs' l' ->
  (on_change U oc F gs = on_change U oc F gs' <-> map blur l = map blur l').
Proof. exact real_page. Qed.
Print Assumptions C94_page.
(** An error's paragraph determines the error. *)
Theorem C94_error_paragraph : forall esc up up' c c',
  let F := real_formats esc (shortest_digits up) (shortest_digits up') in
  error_paragraph F c = error_paragraph F c' -> c = c'.
Proof. exact real_paragraph. Qed.
Print Assumptions C94_error_paragraph.
Definition real : formats := real_formats ascii_table (shortest_digits true) (shortest_digits true).
Definition real_file (l : list string) : process := main_file sample_unicode true real "a.ws" (Contents (source l)).
Example C94_example :
  sane sample_unicode /\ valid_source (source ["print 1.50"]) /\ valid_source (source ["print 1.5 "]) /\
  p_out (real_file ["print 1.50"]) = lns
    ["["; "    Print("; "        LiteralNumber("; "            1.5,"; "        ),"; "    ),"; "]"; ""] /\
  p_end (real_file ["print 1.50"]) = Exited 0 /\
  p_out (real_file ["print 1.50"]) = p_out (real_file ["print 1.5 "]) /\
  p_out (real_file ["print 1.5"]) <> p_out (real_file ["print 1.51"]) /\
  parse_string sample_unicode true real (source ["return"]) =
    Done (Err ("1:1 at ""return"": Cannot return from top-level code." ++ s_nl ++ s_nl)).
Proof. sample. vm_compute. discriminate. Qed.
