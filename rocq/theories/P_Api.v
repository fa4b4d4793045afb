(** A [Parser] and a [Scanner] used directly (src/parser.rs:58-110, src/scanner.rs:67-107): C96, C97. *)
From Verif Require Import Base F64 Token Ast Scanner Parser ParserApi Segment SpecLex SpecScan ScanFinal
  ApiTop ApiMore Missing TestsParser P_Parser P_Driver.
Local Open Scope string_scope.

(** ** C96 *)
Theorem C96_calls_end : forall toks trailing oc cs,
  (exists rs, parser_calls toks trailing oc cs = Done rs) \/
  exists w, parser_calls toks trailing oc cs = Panicked w.
Proof. exact calls_end. Qed.
Print Assumptions C96_calls_end.
Theorem C96_panics : forall toks trailing oc cs w, parser_calls toks trailing oc cs = Panicked w ->
  Forall (fun t => t_type t <> Eof) toks \/
  exists pre eof post, toks = (pre ++ eof :: post)%list /\ t_type eof = Eof /\
    Forall (fun t => t_type t <> Eof) pre /\
    (pre = nil \/
     exists t, In t pre /\
       (t_type t = Number /\ t_float t = None \/ t_type t = TString /\ t_string t = None)).
Proof. exact panics. Qed.
Print Assumptions C96_panics.
Theorem C96_after_eof : forall pre post post' eof, t_type eof = Eof -> Forall (fun t => t_type t <> Eof) pre ->
  forall trailing oc cs,
  parser_calls (pre ++ eof :: post)%list trailing oc cs = parser_calls (pre ++ eof :: post')%list trailing oc cs.
Proof. exact after_eof. Qed.
Print Assumptions C96_after_eof.
Theorem C96_first_parse : forall pre post eof, t_type eof = Eof -> Forall (fun t => t_type t <> Eof) pre ->
  Forall valued pre -> forall trailing oc, exists r, parse_tokens (pre ++ eof :: post)%list trailing oc = Done r.
Proof. exact parse_return. Qed.
Print Assumptions C96_first_parse.
Theorem C96_parse_then : forall pre post eof, t_type eof = Eof -> Forall (fun t => t_type t <> Eof) pre ->
  forall trailing oc r cs, parse_tokens (pre ++ eof :: post)%list trailing oc = Done r -> pre <> nil \/ oc = false ->
  parser_calls (pre ++ eof :: post)%list trailing oc (AskParse :: cs) =
  Done (GotStatements r ::
        map (fun c => match c with
                      | AskParse => GotStatements (Ok nil)
                      | AskExpression =>
                        GotExpression (Err [match rev pre with
                                            | t :: _ => cause_at (tloc t) (t_lexeme t) "Expect expression."
                                            | nil => cause_new default_loc "Expect expression."
                                            end])
                      end) cs).
Proof. exact sequence. Qed.
Print Assumptions C96_parse_then.
Theorem C96_no_eof : forall toks trailing oc cs rs, Forall (fun t => t_type t <> Eof) toks ->
  parser_calls toks trailing oc cs = Done rs ->
  Forall (fun r => match r with
                   | GotStatements (Ok _) | GotExpression (Ok _) => False
                   | _ => True
                   end) rs.
Proof. exact no_eof_calls. Qed.
Print Assumptions C96_no_eof.
Theorem C96_missing_eof : forall toks last eof trailing oc r,
  nth_error toks (length toks - 1) = Some last -> Forall (fun t => t_type t <> Eof) toks ->
  t_type eof = Eof -> tloc eof = tloc last ->
  parse_tokens toks trailing oc = Done r ->
  exists es, r = Err (es ++ [cause_new (tloc last) "Expected end of file"])%list /\
    match parse_tokens (toks ++ [eof])%list trailing oc with
    | Done (Ok _) => es = nil
    | Done (Err es') => es <> nil /\
        Forall2 (fun c c' => c_loc c = c_loc c' /\ c_message c = c_message c') es es'
    | _ => False
    end.
Proof. intros toks last eof trailing oc r L N E P. exact (missing_end toks last eof E L P N trailing oc r). Qed.
Print Assumptions C96_missing_eof.
Theorem C96_empty_vector : forall trailing oc cs, parser_calls nil trailing oc (AskParse :: cs) =
  if oc then Panicked "attempt to subtract with overflow"
  else olet rs <- parser_calls nil trailing false cs ;;
       Done (GotStatements (Err [cause_new default_loc "Expected end of file"]) :: rs).
Proof. exact empty_list. Qed.
Print Assumptions C96_empty_vector.

Definition bare (k : token_type) (x : string) : token := mkToken k x None None 1 1.
Definition some_tokens : list token := tokens_of_source (source ["print a"; "print b"]).
(** Two good statements, then the end, then anything: three calls. *)
Example C96_example :
  let toks := (some_tokens ++ [bare RightParen ")"])%list in
  (exists pre eof, some_tokens = (pre ++ [eof])%list /\ t_type eof = Eof /\ pre <> nil /\
    Forall (fun t => t_type t <> Eof) pre /\ Forall valued pre) /\
  match parser_calls toks false true [AskParse; AskParse; AskExpression] with
  | Done [GotStatements (Ok l); GotStatements (Ok nil); GotExpression (Err [c])] =>
    length l = 2 /\ c_message c = "Expect expression."
  | _ => False
  end.
Proof.
  split.
  - exists (removelast some_tokens), (last some_tokens (bare Eof "")).
    repeat apply conj; try (vm_compute; (reflexivity || discriminate)).
    + vm_compute. repeat (constructor; [discriminate|]). constructor.
    + vm_compute. repeat (constructor; [split; intros Q; discriminate|]). constructor.
  - vm_compute. split; reflexivity.
Qed.
(** An expression read first leaves the parser where it stopped: the rest is read by the next call. *)
Example C96_resumes :
  match parser_calls [bare Identifier "a"; bare RightParen ")"; bare Identifier "b"; bare Eof ""] true true
          [AskExpression; AskExpression; AskExpression; AskParse] with
  | Done [GotExpression (Err [c]); GotExpression (Err [d]); GotExpression (Ok (EVariable x _ _)); GotStatements (Ok nil)] =>
    c_message c = "Expected end of file" /\ d = cause_at (mkLoc 1 1) ")" "Expect expression." /\ x = "b"
  | _ => False
  end.
Proof. vm_compute. auto. Qed.
(** Each reason for a panic is needed. *)
Example C96_panic_examples :
  (exists w, parser_calls [bare Number "1"; bare Eof ""] false true [AskParse] = Panicked w) /\
  (exists w, parser_calls [bare TString "s"; bare Eof ""] false true [AskParse] = Panicked w) /\
  (exists w, parser_calls [bare Eof ""] false true [AskExpression] = Panicked w) /\
  (exists w, parser_calls [bare Minus "-"] false true [AskParse] = Panicked w) /\
  (exists w, parser_calls [bare Minus "-"] false false [AskParse] = Panicked w).
Proof. repeat apply conj; eexists; vm_compute; reflexivity. Qed.
(** Without an end-of-file token a good program is refused. *)
Example C96_no_eof_example :
  match parser_calls (removelast some_tokens) false true [AskParse] with
  | Done [GotStatements (Err [c])] => c_message c = "Expected end of file"
  | _ => False
  end.
Proof. vm_compute. reflexivity. Qed.

(** The errors found before are kept. *)
Example C96_missing_eof_example :
  let toks := (removelast (tokens_of_source (source ["print )"; "print b"; "var = 3"])))%list in
  Forall (fun t => t_type t <> Eof) toks /\
  match parse_tokens toks false true with
  | Done (Err [c; d; e]) => c_message c = "Expect expression." /\ c_loc c = mkLoc 1 7 /\
      c_message d = "Expect variable name." /\ c_loc d = mkLoc 3 5 /\ e = cause_new (mkLoc 3 8) "Expected end of file"
  | _ => False
  end.
Proof.
  split; [|vm_compute; auto 6]. vm_compute. repeat (constructor; [discriminate|]). constructor.
Qed.

(** ** C97 *)
Theorem C97_scan_again : forall U gs r, scan_tokens U gs = Done r ->
  exists x line column k, forall n,
    scanner_calls U gs (S n) =
      Done (r :: repeat (Ok (repeat (mkToken Outdent x None None line column) k ++
                             [mkToken Eof x None None line column])%list) n) /\
    match r with
    | Ok toks => exists body, toks = (body ++ repeat (mkToken Outdent x None None line column) k ++
                                      [mkToken Eof x None None line column])%list
    | Err _ => True
    end.
Proof. exact scans_are. Qed.
Print Assumptions C97_scan_again.
Theorem C97_open_blocks : forall U gs toks, sane U -> valid_source gs -> scan_tokens U gs = Done (Ok toks) ->
  exists body x line column k,
    toks = (body ++ repeat (mkToken Outdent x None None line column) k ++ [mkToken Eof x None None line column])%list /\
    count_kind Indent body = count_kind Outdent body + k /\
    forall n, scanner_calls U gs (S n) =
      Done (Ok toks :: repeat (Ok (repeat (mkToken Outdent x None None line column) k ++
                                   [mkToken Eof x None None line column])%list) n).
Proof. exact scans_balance. Qed.
Print Assumptions C97_open_blocks.
Theorem C97_scans_end : forall U gs n, sane U -> valid_source gs ->
  (exists rs, scanner_calls U gs n = Done rs /\ length rs = n) \/
  (scanner_calls U gs n = Diverged /\ scan_tokens U gs = Diverged).
Proof. exact scans_end. Qed.
Print Assumptions C97_scans_end.
(** Errors the first time, two closed blocks the second and third. *)
Example C97_example :
  let gs := source ["if true"; "  1 @"; "  if 2"; "    3"] in
  valid_source gs /\
  match scanner_calls sample_unicode gs 3 with
  | Done [Err [c]; Ok a; Ok b] => map t_type a = [Outdent; Outdent; Eof] /\ b = a
  | _ => False
  end.
Proof. split; [apply check_valid; vm_compute; reflexivity|]. vm_compute. split; reflexivity. Qed.
(** After an open string, even the end-of-file token carries text. *)
Example C97_open_string :
  match scanner_calls sample_unicode (segment (s_quote ++ "abc")) 2 with
  | Done [Err [c]; Ok [t]] => t_type t = Eof /\ t_lexeme t = (s_quote ++ "abc")%string
  | _ => False
  end.
Proof. vm_compute. split; reflexivity. Qed.
(** That scanning twice gives the tokens twice is false. *)
Theorem C97_same_again_refuted : exists gs toks toks', valid_source gs /\
  scanner_calls sample_unicode gs 2 = Done [Ok toks; Ok toks'] /\ toks <> toks'.
Proof.
  exists (segment "a"). eexists. eexists. split; [apply check_valid; vm_compute; reflexivity|].
  split; [vm_compute; reflexivity|discriminate].
Qed.
