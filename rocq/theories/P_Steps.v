(** How far ahead the scanner looks (src/scanner.rs:90-94, 116-321, 396-410, 491-520): C107. *)
From Verif Require Import Base F64 Token Ast Scanner SpecSteps Steps StepsGrow Segment TestsParser ScanFinal P_Errors P_Parser P_Driver.
From Coq Require Import Lia.
Local Open Scope string_scope.

(** ** C107 *)
Theorem C107_steps : forall U X D1 D2 n s, Forall (fun g => g <> EmptyString) X -> steps U n (scanner_new (X ++ D1)) s ->
  length D1 + 2 <= unread s ->
  exists t, steps U n (scanner_new (X ++ D2)) t /\ same_so_far s t /\ unread t + length D1 = unread s + length D2.
Proof. exact scanner_ahead. Qed.
Print Assumptions C107_steps.
Theorem C107_results : forall U X D1 D2 n s, Forall (fun g => g <> EmptyString) X -> steps U n (scanner_new (X ++ D1)) s ->
  length D1 + 2 <= unread s ->
  match scan_tokens U (X ++ D2) with
  | Done (Ok toks) => sc_errors s = nil /\ exists more, toks = (sc_tokens s ++ more)%list
  | Done (Err errs) => exists more, errs = (sc_errors s ++ more)%list
  | _ => True
  end.
Proof. exact scan_ahead. Qed.
Print Assumptions C107_results.
Theorem C107_kept : forall U gs n s, steps U n (scanner_new gs) s ->
  match scan_tokens U gs with
  | Done (Ok toks) => sc_errors s = nil /\ exists more, toks = (sc_tokens s ++ more)%list
  | Done (Err errs) => exists more, errs = (sc_errors s ++ more)%list
  | _ => True
  end.
Proof. exact steps_result. Qed.
Print Assumptions C107_kept.

Theorem C107_all_steps : forall U gs r, scan_tokens U gs = Done r -> exists n s, steps U n (scanner_new gs) s /\ is_at_end s = true /\
  match r with
  | Ok toks => sc_errors s = nil /\ exists l e, toks = (sc_tokens s ++ l ++ [e])%list /\ length l = length (sc_indentation s) /\
      Forall (fun t => t_type t = Outdent) l /\ t_type e = Eof
  | Err errs => errs = sc_errors s
  end.
Proof. exact result_steps. Qed.
Print Assumptions C107_all_steps.

(** The tokens that the rounds before the last few clusters found begin every text that begins like this. *)
Ltac rounds_done := repeat (cbn [steps]; split; [vm_compute; reflexivity|]; eexists; split; [vm_compute; reflexivity|]); reflexivity.
Definition beginning : list string := source ["print 1.5"; "  if x =="].
Example C107_example : forall more,
  match scan_tokens sample_unicode (beginning ++ more) with
  | Done (Ok toks) => map t_type (firstn 5 toks) = [Print; Number; Terminator; Indent; If]
  | _ => True
  end.
Proof.
  intros more.
  assert (Q : exists s, steps sample_unicode 7 (scanner_new (beginning ++ nil)) s /\ 2 <= unread s /\
    map t_type (sc_tokens s) = [Print; Number; Terminator; Indent; If]).
  { eexists. split; [rounds_done|]. split; [vm_compute; repeat constructor|vm_compute; reflexivity]. }
  destruct Q as (s & S & L & T).
  assert (F : Forall (fun g => g <> EmptyString) beginning) by (vm_compute; repeat constructor; discriminate).
  pose proof (C107_results sample_unicode beginning nil more 7 s F S L) as R.
  destruct (scan_tokens sample_unicode (beginning ++ more)) as [[toks|errs]| | |]; auto.
  destruct R as (_ & r & ->). rewrite firstn_app.
  assert (N : length (sc_tokens s) = 5) by (rewrite <- (map_length t_type), T; reflexivity).
  rewrite N, firstn_all2 by lia. cbn [Nat.sub firstn]. now rewrite app_nil_r.
Qed.
(** Ten rounds for [if x] and an indented [print x]; one block is open at the end, and closed by the scan. *)
Example C107_all_example :
  exists s, steps sample_unicode 10 (scanner_new (source ["if x"; "  print x"])) s /\
    map t_type (sc_tokens s) = [If; Identifier; Terminator; Indent; Print; Identifier; Terminator] /\ length (sc_indentation s) = 1 /\
    match scan_tokens sample_unicode (source ["if x"; "  print x"]) with
    | Done (Ok toks) => map t_type toks = [If; Identifier; Terminator; Indent; Print; Identifier; Terminator; Outdent; Eof]
    | _ => False
    end.
Proof. eexists. split; [rounds_done|]. split; [vm_compute; reflexivity|]. split; vm_compute; reflexivity. Qed.
(** A tab is an error whatever follows. *)
Example C107_error_example : forall more,
  match scan_tokens sample_unicode (source ["a"] ++ [s_tab; "b"; "c"] ++ more) with
  | Done (Err (c :: _)) => loc_line (c_loc c) = 2%N
  | Done _ => False
  | _ => True
  end.
Proof.
  intros more.
  assert (Q : exists s c, steps sample_unicode 3 (scanner_new ((source ["a"] ++ [s_tab; "b"; "c"]) ++ nil)) s /\ 2 <= unread s /\
    sc_errors s = [c] /\ loc_line (c_loc c) = 2%N).
  { eexists. eexists. split; [rounds_done|]. split; [vm_compute; repeat constructor|split; vm_compute; reflexivity]. }
  destruct Q as (s & c & S & L & T & P).
  assert (F : Forall (fun g => g <> EmptyString) (source ["a"] ++ [s_tab; "b"; "c"])) by (vm_compute; repeat constructor; discriminate).
  pose proof (C107_results sample_unicode _ nil more 3 s F S L) as R. rewrite <- app_assoc in R.
  destruct (scan_tokens sample_unicode _) as [[toks|errs]| | |]; auto.
  - destruct R as (E & _). congruence.
  - destruct R as (r & ->). rewrite T. exact P.
Qed.

(** One cluster is not enough: [1.] is the number 1 and a dot before [;], and the beginning of 1.5 before [5]. *)
Theorem C107_one_ahead_refuted :
  ~ (forall U X D1 D2 n s, Forall (fun g => g <> EmptyString) X -> steps U n (scanner_new (X ++ D1)) s ->
     length D1 + 1 <= unread s -> exists t, steps U n (scanner_new (X ++ D2)) t /\ sc_tokens t = sc_tokens s).
Proof.
  intros H.
  assert (Q : exists s, steps sample_unicode 1 (scanner_new (["1"; "."] ++ [";"])) s /\ 2 <= unread s /\
    map t_lexeme (sc_tokens s) = ["1"]).
  { eexists. split; [rounds_done|]. split; [vm_compute; repeat constructor|vm_compute; reflexivity]. }
  destruct Q as (s & S & L & T).
  destruct (H sample_unicode ["1"; "."] [";"] ["5"] 1 s) as (t & (_ & u & B & ->) & C); auto.
  { repeat constructor; discriminate. }
  rewrite <- C in T.
  assert (W : exists v, scan_token sample_unicode (set_start (peek_index (scanner_new (["1"; "."] ++ ["5"]))) (scanner_new (["1"; "."] ++ ["5"]))) = Done v /\
    map t_lexeme (sc_tokens v) = ["1.5"]).
  { eexists. split; vm_compute; reflexivity. }
  destruct W as (v & V1 & V2). rewrite V1 in B. injection B as ->. rewrite V2 in T. discriminate.
Qed.
Print Assumptions C107_one_ahead_refuted.
