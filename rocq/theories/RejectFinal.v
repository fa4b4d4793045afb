(** The parser reports exactly the errors of SpecReject.v. *)
From Verif Require Import Base F64 Token Ast Scanner Parser SpecLex SpecGrammar ParseRun ParseSound
  ParseTop ParseFirst ParseComplete ParseProps ParseLine ParseMore Segment TestsParser SpecScan ScanFinal SpecReject RejectTop RejectUnique.
From Verif Require ParseReject.
From Coq Require Import Lia.

Lemma program_errors_unique : forall trailing toks cs cs', tokens_ok toks ->
  program_errors trailing toks cs -> program_errors trailing toks cs' -> cs = cs'.
Proof.
  intros trailing toks cs cs' OK. unfold program_errors. destruct (before_end toks) as [t|].
  - intros H H'. eapply reports_unique; eauto. now right.
  - congruence.
Qed.
Theorem parse_tokens_errors : forall toks trailing oc cs, tokens_ok toks -> cs <> nil ->
  (parse_tokens toks trailing oc = Done (Err cs) <-> program_errors trailing toks cs).
Proof.
  intros toks trailing oc cs OK NE.
  destruct (parse_tokens_reports toks trailing oc OK) as (r & E & H).
  destruct (parse_tokens_spec toks trailing oc OK) as (r' & E' & S). rewrite E in E'. injection E' as <-.
  split.
  - rewrite E. intros X. injection X as ->. exact H.
  - intros P. assert (Z := program_errors_unique _ _ _ _ OK H P). destruct r as [l|cs']; [congruence|].
    rewrite E. now subst.
Qed.
Theorem parse_tokens_no_errors : forall toks trailing oc, tokens_ok toks ->
  ((exists l, parse_tokens toks trailing oc = Done (Ok l)) <-> program_errors trailing toks nil).
Proof.
  intros toks trailing oc OK.
  destruct (parse_tokens_reports toks trailing oc OK) as (r & E & H).
  destruct (parse_tokens_spec toks trailing oc OK) as (r' & E' & S). rewrite E in E'. injection E' as <-.
  split.
  - intros (l & X). rewrite E in X. injection X as ->. exact H.
  - intros P. assert (Z := program_errors_unique _ _ _ _ OK H P). destruct r as [l|cs']; eauto.
    exfalso. now apply S.
Qed.
Theorem parse_tokens_builds : forall toks trailing, tokens_ok toks ->
  parse_tokens toks trailing true = parse_tokens toks trailing false.
Proof.
  intros toks trailing OK.
  destruct (parse_tokens_spec toks trailing true OK) as ([l|cs] & E & S); rewrite E; symmetry.
  - apply parse_tokens_exact; auto. 
  - apply parse_tokens_errors; auto; [tauto|]. apply parse_tokens_errors in E; auto; tauto.
Qed.

(** ** Expressions *)
Section Expression.
Variable toks : list token.
Variable trailing oc : bool.
Hypothesis OK : tokens_ok toks.
Hypothesis LEN : length toks <> 1.

Lemma has_ending : exists t, before_end toks = Some t.
Proof. apply before_end_some. assert (P := toks_nonempty toks OK). lia. Qed.
Lemma start_valid : valid toks (mkP 0 0).
Proof.
  assert (P := toks_nonempty toks OK).
  apply not_end_valid; [exact P|]. destruct (is_at_end toks (mkP 0 0)) eqn:E; auto. exfalso.
  apply end_eof in E; [|exact P]. destruct (rest_some toks (mkP 0 0) P) as (t & i & R).
  rewrite R in E. apply starts_one in E.
  apply (eof_last toks OK _ _ _ R) in E. subst i. unfold ParseRun.rest in R. cbn in R. rewrite R in LEN. now apply LEN.
Qed.
Lemma parse_expression_rejects : forall cs, parse_expression_tokens toks trailing oc = Done (Err cs) ->
  exists c, cs = [c] /\ expression_error trailing toks c.
Proof.
  intros cs H. destruct has_ending as (t & B). unfold parse_expression_tokens in H.
  destruct (level_sound toks trailing oc OK (nesting_fuel toks)) as (HE & _ & _).
  destruct (ParseReject.level_err toks trailing oc OK t B (nesting_fuel toks)) as (EE & _ & _).
  assert (O : okay toks false (mkP 0 0)) by (split; [exact start_valid|reflexivity]).
  assert (RM : room toks (nesting_fuel toks) (mkP 0 0)) by (unfold room, nesting_fuel; cbn; lia).
  specialize (HE false (mkP 0 0) O RM). specialize (EE false (mkP 0 0) O RM).
  unfold run in HE. unfold ParseReject.Err in EE. unfold pbind in H.
  destruct (k_expr (level toks trailing oc (nesting_fuel toks)) (mkP 0 0)) as [e s1|c s1|w|]; [| |tauto|tauto].
  - destruct HE as [(V1 & I1 & C1 & L1) [HE M]].
    destruct (is_at_end toks s1) eqn:E.
    + rewrite consume_eof in H by (auto; apply V1). discriminate.
    + destruct (valid_rest toks s1 V1) as (u & i & R).
      assert (K : tt_eqb (t_type u) Eof = false).
      { unfold is_at_end in E. now rewrite rest_nth, R in E. }
      unfold consume, consume_any_of, matches, gets, pbind at 1 2 in H. rewrite rest_nth, R in H.
      cbn [hd_error tt_mem existsb] in H. rewrite K in H. cbn [orb] in H.
      unfold error_from_peek, peek_source_loc, gets, pbind in H. cbn in H. rewrite rest_nth, R in H. cbn in H.
      injection H as <-. eexists. split; [reflexivity|]. exists t. eexists. split; [exact B|]. split.
      * eapply rj_sub; [eexists; exact HE|]. rewrite R. apply rj_missing. cbn. now rewrite K.
      * reflexivity.
  - destruct (EE c s1 eq_refl) as (lk & RJ & _). injection H as <-. exists c. split; auto.
    exists t. eexists. split; [exact B|]. split; [apply rj_sub_bad; exact RJ|reflexivity].
Qed.
Lemma expression_error_unique : forall c c', expression_error trailing toks c ->
  expression_error trailing toks c' -> c = c'.
Proof.
  intros c c' (t & f & B & R & ->) (t' & f' & B' & R' & ->). rewrite B in B'. injection B' as <-.
  f_equal. eapply rejects_unique; eauto; [|now right]. repeat constructor.
Qed.
Theorem parse_expression_errors : forall cs,
  parse_expression_tokens toks trailing oc = Done (Err cs) <->
  exists c, cs = [c] /\ expression_error trailing toks c.
Proof.
  intros cs. split; [apply parse_expression_rejects|]. intros (c & -> & EE).
  destruct (parse_expression_spec toks trailing oc OK LEN) as ([e|cs] & E & H).
  - exfalso. destruct H as (eof & K & D). destruct EE as (t & f & B & R & ->).
    eapply excluded; [exact R|repeat constructor|now right|].
    eapply ps_sub; [eexists; exact D|]. apply ps_need; [cbn; now rewrite K|apply ps_nil].
  - rewrite E. apply parse_expression_rejects in E. destruct E as (c' & -> & EE').
    rewrite (expression_error_unique c c'); auto.
Qed.
End Expression.
Theorem parse_expression_builds : forall toks trailing, tokens_ok toks -> length toks <> 1 ->
  parse_expression_tokens toks trailing true = parse_expression_tokens toks trailing false.
Proof.
  intros toks trailing OK L.
  destruct (parse_expression_spec toks trailing true OK L) as ([e|cs] & E & S); rewrite E; symmetry.
  - apply parse_expression_exact; auto.
  - apply parse_expression_errors; auto. now apply parse_expression_errors in E.
Qed.

(** ** From source text *)
Section Source.
Variable U : unicode.
Hypothesis Sn : sane U.
Variable gs : list string.
Hypothesis V : valid_source gs.
Variable toks : list token.
Hypothesis T : scan_tokens U gs = Done (Ok toks).

Lemma source_ok : tokens_ok toks.
Proof. eapply scanned_ok; eauto. Qed.
Lemma parse_source_errors : forall oc cs, cs <> nil ->
  (parse U oc gs = Done (Err cs) <-> program_errors false toks cs).
Proof.
  intros oc cs NE. unfold parse, parse_with. rewrite T. cbn [obind].
  apply parse_tokens_errors; auto using source_ok.
Qed.
Lemma parse_repl_line_errors : forall oc cs, cs <> nil ->
  (parse_repl_line U oc gs = Done (Err cs) <-> program_errors true toks cs).
Proof.
  intros oc cs NE. unfold parse_repl_line, parse_with. rewrite T. cbn [obind].
  apply parse_tokens_errors; auto using source_ok.
Qed.
Lemma parse_expression_source_errors : forall oc cs, length toks <> 1 ->
  (parse_expression U oc gs = Done (Err cs) <-> exists c, cs = [c] /\ expression_error false toks c).
Proof.
  intros oc cs L. unfold parse_expression, parse_with. rewrite T. cbn [obind].
  apply parse_expression_errors; auto using source_ok.
Qed.
Lemma only_scan_errors : forall oc l, parse U oc gs = Done (Ok l) -> program_errors false toks nil.
Proof.
  intros oc l H. unfold parse, parse_with in H. rewrite T in H. cbn [obind] in H.
  eapply parse_tokens_no_errors; eauto using source_ok.
Qed.
End Source.
Lemma same_results : forall U gs, sane U -> valid_source gs ->
  parse U true gs = parse U false gs /\ parse_repl_line U true gs = parse_repl_line U false gs /\
  ((forall eof, scan_tokens U gs <> Done (Ok [eof])) ->
   parse_expression U true gs = parse_expression U false gs).
Proof.
  intros U gs Sn V. unfold parse, parse_repl_line, parse_expression, parse_with.
  destruct (scan_three U Sn gs V) as [(toks & E & OK)|[(errs & E)|E]]; rewrite E; cbn [obind]; auto.
  split; [now apply parse_tokens_builds|]. split; [now apply parse_tokens_builds|].
  intros N. apply parse_expression_builds; auto. intros L. destruct toks as [|t [|]]; try discriminate.
  now apply (N t).
Qed.

(** ** Recovery *)
Lemma recovers_at : forall i r, recovers i r -> resumes_at i r.
Proof.
  induction 1 as [i S|t i I|t i r N H (p & F & D)].
  - exists nil. split; [constructor|]. right. auto.
  - exists nil. split; [constructor|]. left. exists t. auto.
  - exists (t :: p). split; [constructor; auto; intros I; apply N; now right|].
    destruct D as [(u & I & ->)|(S & ->)]; [left; exists u; auto|right; auto].
Qed.
Lemma first_error : forall trailing toks c cs, program_errors trailing toks (c :: cs) ->
  exists t i f r, before_end toks = Some t /\ declarations trailing false toks i /\
    rejects trailing t false (steps_of trailing t false Declaration) i f /\ c = f_cause f /\
    resumes_at (f_left f) r /\ reports trailing t (f_loop f) r cs.
Proof.
  intros trailing toks c cs. unfold program_errors. destruct (before_end toks) as [t|]; [|discriminate].
  intros H. exists t. remember false as b eqn:B. remember (c :: cs) as l eqn:L. revert c cs L.
  induction H as [b i S|b i st r l D R IH|b i f r l N J V R IH]; intros c cs L; try discriminate.
  - destruct (IH B c cs L) as (i' & f & r' & E & DS & X). exists i', f, r'. split; auto. split; auto.
    eapply ds_more; eauto.
  - injection L as <- <-. subst b. exists i, f, r. split; auto. split; [constructor|]. split; auto. split; auto.
    split; auto using recovers_at.
Qed.
Lemma parse_first_error : forall U oc gs toks c cs, sane U -> valid_source gs ->
  scan_tokens U gs = Done (Ok toks) -> parse U oc gs = Done (Err (c :: cs)) ->
  exists t i f r, before_end toks = Some t /\ declarations false false toks i /\
    rejects false t false (steps_of false t false Declaration) i f /\ c = f_cause f /\
    resumes_at (f_left f) r /\ reports false t (f_loop f) r cs.
Proof.
  intros U oc gs toks c cs Sn V T H. apply (parse_source_errors U Sn gs V toks T) in H; [|discriminate].
  now apply first_error.
Qed.
Definition source (l : list string) : list string := segment (String.append (lns l) s_nl).
Lemma recovery_refuted :
  ~ (forall U oc wrong right cs l, sane U -> valid_source (source wrong) -> valid_source (source right) ->
     parse U oc (source wrong) = Done (Err cs) -> parse U oc (source right) = Done (Ok l) ->
     parse U oc (source (wrong ++ right)) = Done (Err cs)).
Proof.
  assert (OKS : forall A E (o : outcome (result A E)), is_ok o = true -> exists l, o = Done (Ok l)).
  { intros A E [[l|]| | |] H; try discriminate. eauto. }
  intros H.
  destruct (OKS _ _ (parse sample_unicode true (source ["for (;;) a"])) ltac:(vm_compute; reflexivity)) as (l & E2).
  assert (E1 : parse sample_unicode true (source ["print (1"]) =
    Done (Err [mkCause (mkLoc 1 9) (Some s_nl) "Missing close parenthesis."])) by (vm_compute; reflexivity).
  assert (V1 : valid_source (source ["print (1"])) by (apply check_valid; vm_compute; reflexivity).
  assert (V2 : valid_source (source ["for (;;) a"])) by (apply check_valid; vm_compute; reflexivity).
  assert (X := H sample_unicode true _ _ _ l sample_sane V1 V2 E1 E2).
  assert (Y : match parse sample_unicode true (source (["print (1"] ++ ["for (;;) a"])) with
              | Done (Err cs) => length cs | _ => 0 end = 2) by (vm_compute; reflexivity).
  rewrite X in Y. discriminate.
Qed.
