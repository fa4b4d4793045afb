(** What the scanner and the parser have found of a text is settled (src/parser.rs:10-24). *)
From Verif Require Import Base F64 Token Ast Scanner Parser SpecAhead AheadTop SpecSteps Steps StepsGrow.

Theorem settled U trailing oc X D1 D2 n s S1 l p :
  Forall (fun g => g <> EmptyString) X -> steps U n (scanner_new (X ++ D1)) s -> length D1 + 2 <= unread s ->
  rounds (sc_tokens s ++ S1) trailing oc (mkP 0 0) l p -> cur p + 2 < length (sc_tokens s) ->
  match parse_with U (fun toks => parse_tokens toks trailing oc) (X ++ D2) with
  | Done (Ok sts) => sc_errors s = nil /\ errors_of l = nil /\ exists more, sts = (statements_of l ++ more)%list
  | Done (Err errs) => (exists more, errs = (sc_errors s ++ more)%list) /\
                       (sc_errors s = nil -> (exists more, errs = (errors_of l ++ more)%list) \/ scan_tokens U (X ++ D2) = Done (Err errs))
  | _ => True
  end.
Proof.
  intros F S L Q C. pose proof (scan_ahead U X D1 D2 n s F S L) as A. unfold parse_with.
  destruct (scan_tokens U (X ++ D2)) as [[toks|errs]| | |] eqn:E; cbn [obind]; auto.
  - destruct A as (N & more & ->). pose proof (results_ahead (sc_tokens s) S1 more trailing oc l p Q C) as H.
    destruct (parse_tokens _ _ _) as [[sts|errs]| | |]; auto. split; [rewrite N; cbn; eauto|auto].
Qed.
(** With an error among what is settled no text that begins so is accepted. *)
Theorem settled_rejected U trailing oc X D1 D2 n s S1 l p :
  Forall (fun g => g <> EmptyString) X -> steps U n (scanner_new (X ++ D1)) s -> length D1 + 2 <= unread s ->
  rounds (sc_tokens s ++ S1) trailing oc (mkP 0 0) l p -> cur p + 2 < length (sc_tokens s) ->
  sc_errors s <> nil \/ errors_of l <> nil -> forall sts,
  parse_with U (fun toks => parse_tokens toks trailing oc) (X ++ D2) <> Done (Ok sts).
Proof.
  intros F S L Q C N sts E. pose proof (settled U trailing oc X D1 D2 n s S1 l p F S L Q C) as A. rewrite E in A. tauto.
Qed.
