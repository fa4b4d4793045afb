(** What has been read of a text is settled (src/parser.rs:10-24, src/scanner.rs:89-113): C108. *)
From Verif Require Import Base F64 Token Ast Scanner Parser SpecAhead SpecSteps Settled Segment TestsParser ScanFinal P_Errors P_Parser P_Driver.
From Coq Require Import Lia.
Local Open Scope string_scope.

(** ** C108 *)
Theorem C108_files : forall U oc X D1 D2 n s S1 l p,
  Forall (fun g => g <> EmptyString) X -> steps U n (scanner_new (X ++ D1)) s -> length D1 + 2 <= unread s ->
  rounds (sc_tokens s ++ S1) false oc (mkP 0 0) l p -> cur p + 2 < length (sc_tokens s) ->
  match parse U oc (X ++ D2) with
  | Done (Ok sts) => sc_errors s = nil /\ errors_of l = nil /\ exists more, sts = (statements_of l ++ more)%list
  | Done (Err errs) => (exists more, errs = (sc_errors s ++ more)%list) /\
                       (sc_errors s = nil -> (exists more, errs = (errors_of l ++ more)%list) \/ scan_tokens U (X ++ D2) = Done (Err errs))
  | _ => True
  end.
Proof. exact (fun U oc => settled U false oc). Qed.
Print Assumptions C108_files.
Theorem C108_lines : forall U oc X D1 D2 n s S1 l p,
  Forall (fun g => g <> EmptyString) X -> steps U n (scanner_new (X ++ D1)) s -> length D1 + 2 <= unread s ->
  rounds (sc_tokens s ++ S1) true oc (mkP 0 0) l p -> cur p + 2 < length (sc_tokens s) ->
  match parse_repl_line U oc (X ++ D2) with
  | Done (Ok sts) => sc_errors s = nil /\ errors_of l = nil /\ exists more, sts = (statements_of l ++ more)%list
  | Done (Err errs) => (exists more, errs = (sc_errors s ++ more)%list) /\
                       (sc_errors s = nil -> (exists more, errs = (errors_of l ++ more)%list) \/ scan_tokens U (X ++ D2) = Done (Err errs))
  | _ => True
  end.
Proof. exact (fun U oc => settled U true oc). Qed.
Print Assumptions C108_lines.
Theorem C108_rejected : forall U oc X D1 D2 n s S1 l p,
  Forall (fun g => g <> EmptyString) X -> steps U n (scanner_new (X ++ D1)) s -> length D1 + 2 <= unread s ->
  rounds (sc_tokens s ++ S1) false oc (mkP 0 0) l p -> cur p + 2 < length (sc_tokens s) ->
  sc_errors s <> nil \/ errors_of l <> nil -> forall sts, parse U oc (X ++ D2) <> Done (Ok sts).
Proof. exact (fun U oc => settled_rejected U false oc). Qed.
Print Assumptions C108_rejected.

(** No program that begins with these lines is accepted. *)
Definition wrong_beginning : list string := source ["var = 1"; "print a + b"; "print c"].
Ltac scan_rounds := repeat (cbn [steps]; split; [vm_compute; reflexivity|]; eexists; split; [vm_compute; reflexivity|]); reflexivity.
Ltac parse_rounds := eapply rounds_one; [vm_compute; reflexivity|vm_compute; reflexivity|].
Example C108_rejected_example : forall more sts, parse sample_unicode true (wrong_beginning ++ more) <> Done (Ok sts).
Proof.
  intros more sts.
  assert (Q : exists s l p, steps sample_unicode 15 (scanner_new (wrong_beginning ++ nil)) s /\ 2 <= unread s /\
    rounds (sc_tokens s ++ nil) false true (mkP 0 0) l p /\ cur p + 2 < length (sc_tokens s) /\ errors_of l <> nil).
  { eexists. eexists. eexists. split; [scan_rounds|]. split; [vm_compute; repeat constructor|].
    split; [parse_rounds; constructor|]. split; [vm_compute; repeat constructor|vm_compute; discriminate]. }
  destruct Q as (s & l & p & A & B & C & D & E).
  assert (F : Forall (fun g => g <> EmptyString) wrong_beginning) by (vm_compute; repeat constructor; discriminate).
  exact (C108_rejected sample_unicode true wrong_beginning nil more 15 s nil l p F A B C D (or_intror E) sts).
Qed.
(** Every accepted program that begins with these lines begins with these statements. *)
Definition right_beginning : list string := source ["var x = 1"; "print x"; "print 2 + 3"].
Example C108_example : exists x y, (forall more,
  match parse sample_unicode true (right_beginning ++ more) with
  | Done (Ok sts) => exists r, sts = (x :: y :: r)%list
  | _ => True
  end) /\ match parse sample_unicode true (right_beginning ++ source ["print 4"]) with
  | Done (Ok sts) => firstn 2 sts = [x; y] /\ length sts = 4
  | _ => False
  end.
Proof.
  assert (Q : exists s x y p, steps sample_unicode 17 (scanner_new (right_beginning ++ nil)) s /\ 2 <= unread s /\
    rounds (sc_tokens s ++ nil) false true (mkP 0 0) [Parsed x; Parsed y] p /\ cur p + 2 < length (sc_tokens s) /\
    match parse sample_unicode true (right_beginning ++ source ["print 4"]) with
    | Done (Ok sts) => firstn 2 sts = [x; y] /\ length sts = 4
    | _ => False
    end).
  { eexists. eexists. eexists. eexists. split; [scan_rounds|]. split; [vm_compute; repeat constructor|].
    split; [parse_rounds; parse_rounds; constructor|]. split; [vm_compute; repeat constructor|vm_compute; split; reflexivity]. }
  destruct Q as (s & x & y & p & A & B & C & D & E). exists x, y. split; [clear E; intros more|exact E].
  assert (F : Forall (fun g => g <> EmptyString) right_beginning) by (vm_compute; repeat constructor; discriminate).
  pose proof (C108_files sample_unicode true right_beginning nil more 17 s nil _ p F A B C D) as R.
  destruct (parse sample_unicode true (right_beginning ++ more)) as [[sts|errs]| | |]; try exact I.
  destruct R as (_ & _ & r & ->). exists r. reflexivity.
Qed.
