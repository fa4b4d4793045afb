(** How far ahead the parser looks (src/parser.rs:79-103, 1043-1146, 1286-1305): C106. *)
From Verif Require Import Base F64 Token Ast Scanner Parser ApiTop SpecAhead AheadTop Segment TestsParser ScanFinal P_Errors P_Parser P_Driver.
Local Open Scope string_scope.

(** ** C106 *)
Theorem C106_expression : forall X S1 S2 trailing oc s s1, cur s <= first_eof (X ++ S2) ->
  left_at (expression_at (X ++ S1) trailing oc s) = Some s1 -> cur s1 + 2 < length X ->
  expression_at (X ++ S2) trailing oc s = expression_at (X ++ S1) trailing oc s.
Proof. exact expression_ahead. Qed.
Print Assumptions C106_expression.
Theorem C106_statement : forall X S1 S2 trailing oc s s1, cur s <= first_eof (X ++ S2) ->
  left_at (declaration_at (X ++ S1) trailing oc s) = Some s1 -> cur s1 + 2 < length X ->
  declaration_at (X ++ S2) trailing oc s = declaration_at (X ++ S1) trailing oc s.
Proof. exact declaration_ahead. Qed.
Print Assumptions C106_statement.
Theorem C106_rounds : forall X S1 S2 trailing oc s l s1, cur s <= first_eof (X ++ S1) ->
  rounds (X ++ S1) trailing oc s l s1 -> cur s1 + 2 < length X -> rounds (X ++ S2) trailing oc s l s1.
Proof. exact rounds_ahead. Qed.
Print Assumptions C106_rounds.
Theorem C106_results : forall X S1 S2 trailing oc l s, rounds (X ++ S1) trailing oc (mkP 0 0) l s -> cur s + 2 < length X ->
  match parse_tokens (X ++ S2) trailing oc with
  | Done (Ok sts) => errors_of l = nil /\ exists more, sts = (statements_of l ++ more)%list
  | Done (Err errs) => exists more, errs = (errors_of l ++ more)%list
  | _ => True
  end.
Proof. exact results_ahead. Qed.
Print Assumptions C106_results.
Theorem C106_all_rounds : forall toks trailing oc r, parse_tokens toks trailing oc = Done r ->
  exists l s, rounds toks trailing oc (mkP 0 0) l s /\ is_at_end toks s = true /\
    match r with
    | Ok sts => l = map Parsed sts
    | Err errs => exists last, errs = (errors_of l ++ last)%list /\ length last <= 1
    end.
Proof. exact result_rounds. Qed.
Print Assumptions C106_all_rounds.

Theorem C106_errors : forall X S1 S2 trailing oc l s c u, rounds (X ++ S1) trailing oc (mkP 0 0) l s ->
  is_at_end (X ++ S1) s = false -> declaration_at (X ++ S1) trailing oc s = PErr c u -> cur u + 2 < length X ->
  match parse_tokens (X ++ S2) trailing oc with
  | Done (Ok sts) => False
  | Done (Err errs) => exists more, errs = (errors_of l ++ c :: more)%list
  | _ => True
  end.
Proof. exact error_ahead. Qed.
Print Assumptions C106_errors.

(** Two texts whose tokens are the same up to the third [print]; the first two rounds are those of both. *)
Definition tokens_in (ls : list string) : list token :=
  match scan_tokens sample_unicode (source ls) with Done (Ok t) => t | _ => nil end.
Definition good_tokens : list token := tokens_in ["var = 1"; "print a"; "print b + 1"; "print c"].
Definition bad_tokens : list token := tokens_in ["var = 1"; "print a"; "print b + )"; "if c"].
Example C106_example :
  firstn 10 good_tokens = firstn 10 bad_tokens /\ skipn 10 good_tokens <> skipn 10 bad_tokens /\
  exists c d s, rounds good_tokens true true (mkP 0 0) [Failed c; Parsed d] s /\ cur s + 2 < 10 /\
    rounds bad_tokens true true (mkP 0 0) [Failed c; Parsed d] s /\
    c_message c = "Expect variable name." /\
    parse_tokens good_tokens true true = Done (Err [c]) /\
    exists more, parse_tokens bad_tokens true true = Done (Err (c :: more)) /\ length more = 1.
Proof.
  split; [vm_compute; reflexivity|]. split; [vm_compute; discriminate|].
  eexists. eexists. eexists.
  split; [eapply rounds_one; [vm_compute; reflexivity|vm_compute; reflexivity|eapply rounds_one; [vm_compute; reflexivity|vm_compute; reflexivity|constructor]]|].
  split; [vm_compute; repeat constructor|].
  split; [eapply rounds_one; [vm_compute; reflexivity|vm_compute; reflexivity|eapply rounds_one; [vm_compute; reflexivity|vm_compute; reflexivity|constructor]]|].
  split; [vm_compute; reflexivity|]. split; [vm_compute; reflexivity|]. eexists. split; vm_compute; reflexivity.
Qed.

(** Whatever follows the first four tokens of [var = 1], it is not accepted. *)
Example C106_errors_example : forall more,
  map t_type (firstn 4 good_tokens) = [Var; Equal; Number; Terminator] /\
  match parse_tokens (firstn 4 good_tokens ++ more) true true with
  | Done (Err (c :: _)) => c_message c = "Expect variable name."
  | Done _ => False
  | _ => True
  end.
Proof.
  intros more. split; [vm_compute; reflexivity|].
  assert (Q : exists c u, declaration_at (firstn 4 good_tokens ++ nil) true true (mkP 0 0) = PErr c u /\
    c_message c = "Expect variable name." /\ cur u + 2 < 4).
  { eexists. eexists. split; [vm_compute; reflexivity|]. split; [reflexivity|]. vm_compute. repeat constructor. }
  destruct Q as (c & u & D & M & L).
  pose proof (C106_errors (firstn 4 good_tokens) nil more true true nil (mkP 0 0) c u (rounds_none _ _ _ _) eq_refl D L) as H.
  destruct (parse_tokens _ _ _) as [[sts|errs]| | |]; auto. destruct H as (r & ->). exact M.
Qed.

(** Fewer tokens do not do: on the end of a line in a map the parser looks for a name and a colon. Here both runs
    succeed, with different maps. *)
Definition word (k : token_type) (text : string) : token := mkToken k text None None 1 1.
Definition map_begun : list token := [word Identifier "a"; word Colon ":"; word Nil "nil"; word Terminator ""; word Identifier "b"].
Theorem C106_one_ahead_refuted :
  exists X S1 S2 e1 s1 e2 s2, expression_at (X ++ S1) true true (mkP 0 0) = POk e1 s1 /\ cur s1 + 1 < length X /\
    expression_at (X ++ S2) true true (mkP 0 0) = POk e2 s2 /\ e1 <> e2.
Proof.
  exists map_begun, [word Eof ""], [word Colon ":"; word Nil "nil"; word Eof ""]. eexists. eexists. eexists. eexists.
  split; [vm_compute; reflexivity|]. split; [vm_compute; repeat constructor|]. split; [vm_compute; reflexivity|]. discriminate.
Qed.
Print Assumptions C106_one_ahead_refuted.
