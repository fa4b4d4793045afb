(** Properties relating positions and layout to programs (src/scanner.rs,
    src/parser.rs, src/resolver.rs): C74 and C75.

    [same_result] (SpecScan.v) relates results of the scanner that agree up to
    positions, [same_program] and [same_expression] (SpecPlace.v) results of the
    parser and of the resolver that agree up to positions; [unplaced] removes the
    positions from a tree. *)
From Verif Require Import Base F64 Token Ast Scanner Parser Resolver Segment SpecLex SpecLayout SpecScan SpecPlace
  SpecReject SpecResolve ScanPairs ScanFinal ParseRun RejectFinal RelabelParse RelabelResolve PlaceFinal TestsParser P_Driver.
Local Open Scope string_scope.

(** ** C74 *)
Theorem C74_parse : forall U oc gs gs', sane U -> valid_source gs -> valid_source gs' ->
  same_result (scan_tokens U gs) (scan_tokens U gs') -> same_program (parse U oc gs) (parse U oc gs').
Proof. exact (fun U oc gs gs' Sn V V' => parse_same U Sn gs gs' V V' oc false). Qed.
Print Assumptions C74_parse.
Theorem C74_parse_repl_line : forall U oc gs gs', sane U -> valid_source gs -> valid_source gs' ->
  same_result (scan_tokens U gs) (scan_tokens U gs') ->
  same_program (parse_repl_line U oc gs) (parse_repl_line U oc gs').
Proof. exact (fun U oc gs gs' Sn V V' => parse_same U Sn gs gs' V V' oc true). Qed.
Print Assumptions C74_parse_repl_line.
Theorem C74_parse_expression : forall U oc gs gs', sane U -> valid_source gs -> valid_source gs' ->
  same_result (scan_tokens U gs) (scan_tokens U gs') ->
  same_expression (parse_expression U oc gs) (parse_expression U oc gs').
Proof. exact (fun U oc gs gs' Sn V V' => parse_expression_same U Sn gs gs' V V' oc). Qed.
Print Assumptions C74_parse_expression.
(** Of the texts of tokens, only those of names matter. *)
Theorem C74_words : forall trailing oc toks toks' l, tokens_ok toks -> tokens_ok toks' ->
  Forall2 same_word toks toks' -> parse_tokens toks trailing oc = Done (Ok l) ->
  exists l', parse_tokens toks' trailing oc = Done (Ok l') /\ map unplaced l = map unplaced l'.
Proof. exact parse_words. Qed.
Print Assumptions C74_words.
Theorem C74_resolve : forall l l', map unplaced l = map unplaced l' -> same_program (resolve l) (resolve l').
Proof. exact resolve_same. Qed.
Print Assumptions C74_resolve.
(** In the middle of a session, where the resolver keeps its state. *)
Theorem C74_session : forall l l' s, map unplaced l = map unplaced l' ->
  match resolver_resolve l s, resolver_resolve l' s with
  | Done (r, s1), Done (r', s1') => same_program (Done r) (Done r') /\ s1 = s1'
  | Panicked w, Panicked w' => w = w'
  | _, _ => False
  end.
Proof. exact resolver_same. Qed.
Print Assumptions C74_session.

Definition compact : list string :=
  source ["class A"; "  f(x)"; "    return this.g(x+1,[2,""s""])"; "print A().f"; "print A() +"; "  1"].
Definition spacious : list string :=
  source ["class  A   // a class"; ""; "  f(x )"; "    return  this . g(x + 1 , [ 2, ""s"" ]) ";
          "    // the end of f"; "  "; "print A() . f"; ""; "print  A() +"; "  1"].
Example C74_example :
  sane sample_unicode /\ valid_source compact /\ valid_source spacious /\
  same_result (scan_tokens sample_unicode compact) (scan_tokens sample_unicode spacious) /\
  is_ok (parse sample_unicode true compact) = true /\
  length (match scan_tokens sample_unicode compact with Done (Ok toks) => toks | _ => nil end) = 43.
Proof. parts; [apply sample_sane|apply check_valid; vm_compute; reflexivity ..| vm_compute; reflexivity|
  vm_compute; reflexivity| vm_compute; reflexivity]. Qed.

(** ** C75 *)
Theorem C75_blank_lines : forall U oc x es y n, sane U -> valid_source (x ++ y)%list ->
  lexes U x es -> whole_lines es ->
  same_program (parse U oc (x ++ y)%list) (parse U oc (x ++ (repeat " " n ++ [s_nl]) ++ y)%list).
Proof. exact parse_blank_lines. Qed.
Print Assumptions C75_blank_lines.
Theorem C75_comment_text : forall U oc gs gs' a txt txt' c, sane U -> valid_source gs -> valid_source gs' ->
  lexes U gs (a ++ Comment ("/" :: "/" :: txt) :: c)%list -> Forall (fun g => g <> s_nl) txt' ->
  gs' = (text_of a ++ ("/" :: "/" :: txt') ++ text_of c)%list ->
  same_program (parse U oc gs) (parse U oc gs').
Proof. exact parse_comment_text. Qed.
Print Assumptions C75_comment_text.
Theorem C75_aligned_comment_line : forall U oc x es y n txt, sane U -> valid_source (x ++ y)%list ->
  valid_source txt -> Forall (fun g => g <> s_nl) txt -> lexes U x es -> whole_lines es ->
  is_joined (source_lines es) = false ->
  N.of_nat n = hd 0%N (open_levels (source_lines es)) -> (N.of_nat n <= u16_max)%N ->
  same_program (parse U oc (x ++ y)%list)
               (parse U oc (x ++ (repeat " " n ++ "/" :: "/" :: txt ++ [s_nl]) ++ y)%list).
Proof. exact parse_comment_line. Qed.
Print Assumptions C75_aligned_comment_line.
Theorem C75_spaces : forall U oc gs a k text str num b n, sane U -> u_alphanumeric U 32%N = false ->
  valid_source gs -> lexes U gs (a ++ Tok k text str num :: b)%list -> spaceable k b ->
  same_program (parse U oc gs) (parse U oc (text_of a ++ text ++ repeat " " n ++ text_of b)%list).
Proof. exact parse_spaces. Qed.
Print Assumptions C75_spaces.
Definition one_line : string := String.append "x=f(1)+g" s_nl.
Example C75_example :
  u_alphanumeric sample_unicode 32%N = false /\ valid_source (segment one_line) /\
  lexes sample_unicode (segment one_line) (elements one_line) /\
  elements one_line =
    (firstn 3 (elements one_line) ++ Tok LeftParen ["("] None None :: skipn 4 (elements one_line))%list /\
  spaceable LeftParen (skipn 4 (elements one_line)) /\
  is_ok (parse sample_unicode true (segment one_line)) = true.
Proof. parts; [reflexivity|apply check_valid; vm_compute; reflexivity|apply elements_lex|
  vm_compute; reflexivity ..| vm_compute; reflexivity]. Qed.
(** A space before an opening parenthesis changes the tree. *)
Theorem C75_spaces_ignored_refuted :
  ~ (forall U oc gs a k text str num b, sane U -> u_alphanumeric U 32%N = false -> valid_source gs ->
     lexes U gs (a ++ Tok k text str num :: b)%list ->
     same_program (parse U oc gs) (parse U oc (text_of a ++ text ++ [" "] ++ text_of b)%list)).
Proof. exact spaces_refuted. Qed.
Print Assumptions C75_spaces_ignored_refuted.
