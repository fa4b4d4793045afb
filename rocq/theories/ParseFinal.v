(** The parser properties, in the form in which P_Parser.v states them. *)
From Verif Require Import Base F64 Token Ast Scanner Parser SpecLex SpecLayout SpecScan
  SpecGrammar SpecTree SpecPrint ScanFinal
  ParseRun ParseSound ParseTop ParseFirst ParseComplete ParseTree ParseLoops PrintParse ParseProps
  ParseRepl ParseLine ParseMore Segment.
From Coq Require Import Lia.

(** The program [l] is what one of the entry points for programs returns for [gs]. *)
Definition accepted (U : unicode) (oc : bool) (gs : list string) (l : list stmt) : Prop :=
  parse U oc gs = Done (Ok l) \/ parse_repl_line U oc gs = Done (Ok l).
(** [ps] are the parts of a tree that one of the entry points returns for [gs]. *)
Definition tree_parts (U : unicode) (oc : bool) (gs : list string) (ps : list part) : Prop :=
  (exists l, accepted U oc gs l /\ ps = program_parts l) \/
  (exists e, parse_expression U oc gs = Done (Ok e) /\ ps = expr_parts e).

Lemma program_declarations : forall trailing b i v r, derives trailing b Program i v r -> declarations trailing b i r.
Proof.
  intros trailing b i v r H. remember Program as N. revert HeqN.
  induction H; intros Q; try discriminate; [constructor|]. eapply ds_more; eauto.
Qed.

Section Final.
Variable U : unicode.
Hypothesis Sn : sane U.
Variable oc : bool.
Variable gs : list string.
Hypothesis V : valid_source gs.

Lemma accepted_tokens : forall l, accepted U oc gs l ->
  exists toks trailing, scan_tokens U gs = Done (Ok toks) /\ parse_tokens toks trailing oc = Done (Ok l) /\
    tokens_ok toks.
Proof.
  intros l [H|H]; apply (parse_ok_scans U Sn oc gs V) in H; destruct H as (toks & H); eauto.
Qed.
Lemma parts_shaped : forall ps, tree_parts U oc gs ps ->
  exists toks, scan_tokens U gs = Done (Ok toks) /\ Forall (shaped toks) ps.
Proof.
  intros ps [(l & A & ->)|(e & A & ->)].
  - destruct (accepted_tokens l A) as (toks & trailing & E & P & OK). exists toks. split; auto.
    eapply tree_shaped; eauto.
  - destruct (scan_three U Sn gs V) as [(toks & E & OK)|[(errs & E)|E]].
    + exists toks. split; auto.
      apply (parse_expression_exact' U Sn oc gs V toks e E) in A. destruct A as (eof & _ & A).
      eapply expression_shaped; eauto.
    + unfold parse_expression, parse_with in A. rewrite E in A. discriminate.
    + unfold parse_expression, parse_with in A. rewrite E in A. discriminate.
Qed.
Lemma parts_that : forall (Q : part -> Prop) ps, (forall toks p, shaped toks p -> Q p) ->
  tree_parts U oc gs ps -> Forall Q ps.
Proof.
  intros Q ps I A. destruct (parts_shaped ps A) as (toks & _ & F). exact (Forall_impl _ (I toks) F).
Qed.
Lemma precedence : forall ps, tree_parts U oc gs ps -> Forall precedence_ok ps.
Proof. intros ps. apply parts_that. unfold shaped. tauto. Qed.
Lemma limits : forall ps, tree_parts U oc gs ps -> Forall within_limits ps.
Proof. intros ps. apply parts_that. unfold shaped. tauto. Qed.
Lemma map_keys : forall ps, tree_parts U oc gs ps -> Forall distinct_keys ps.
Proof. intros ps. apply parts_that. unfold shaped. tauto. Qed.
Lemma assign_names : forall ps, tree_parts U oc gs ps -> Forall assigns_name ps.
Proof. intros ps. apply parts_that. unfold shaped. tauto. Qed.
Lemma kinds : forall ps, tree_parts U oc gs ps -> Forall kinds_ok ps.
Proof. intros ps. apply parts_that. unfold shaped. tauto. Qed.
Lemma superclasses : forall ps, tree_parts U oc gs ps -> Forall superclass_ok ps.
Proof. intros ps. apply parts_that. unfold shaped. tauto. Qed.
Lemma placeholders : forall ps, tree_parts U oc gs ps -> Forall unlocated ps.
Proof. intros ps. apply parts_that. unfold shaped. tauto. Qed.
Lemma elses : forall ps, tree_parts U oc gs ps -> Forall else_nearest ps.
Proof. intros ps. apply parts_that. unfold shaped. tauto. Qed.
Lemma branches : forall ps, tree_parts U oc gs ps -> Forall branches_ok ps.
Proof. intros ps. apply parts_that. unfold shaped. tauto. Qed.
Lemma locations : forall ps, tree_parts U oc gs ps ->
  exists toks, scan_tokens U gs = Done (Ok toks) /\ Forall (located toks) ps.
Proof.
  intros ps A. destruct (parts_shaped ps A) as (toks & E & F). exists toks. split; auto.
  refine (Forall_impl _ _ F). unfold shaped. tauto.
Qed.
Lemma loops_enclosed : forall l, accepted U oc gs l -> loops_enclose l.
Proof.
  intros l A. destruct (accepted_tokens l A) as (toks & trailing & E & P & OK).
  eapply tree_shaped; eauto.
Qed.
Lemma loops_enclosed_expression : forall e, parse_expression U oc gs = Done (Ok e) -> expr_strays e = nil.
Proof.
  intros e A. destruct (scan_three U Sn gs V) as [(toks & E & OK)|[(errs & E)|E]].
  - apply (parse_expression_exact' U Sn oc gs V toks e E) in A. destruct A as (eof & _ & A).
    exact (all_keep _ _ _ _ _ _ A eq_refl).
  - unfold parse_expression, parse_with in A. rewrite E in A. discriminate.
  - unfold parse_expression, parse_with in A. rewrite E in A. discriminate.
Qed.
Lemma accepted_well_formed : forall l, accepted U oc gs l -> well_formed l.
Proof.
  intros l A. destruct (accepted_tokens l A) as (toks & trailing & E & P & OK).
  eapply tree_well_formed; eauto.
Qed.

(** ** Errors *)
Lemma expression_errors : forall cs, parse_expression U oc gs = Done (Err cs) ->
  scan_tokens U gs = Done (Err cs) \/
  exists toks, scan_tokens U gs = Done (Ok toks) /\ (exists c, cs = [c]) /\
    (errors_at toks 0 cs \/
     oc = false /\ List.length toks = 1 /\ cs = [cause_new default_loc "Expect expression."]).
Proof.
  intros cs. unfold parse_expression, parse_with.
  destruct (scan_three U Sn gs V) as [(toks & E & OK)|[(errs & E)|E]]; rewrite E; cbn [obind].
  - intros H. right. exists toks. split; auto. destruct (Nat.eq_dec (length toks) 1) as [L|L].
    + rewrite (parse_expression_empty toks false oc OK L) in H. destruct oc; [discriminate|].
      injection H as <-. split; eauto.
    + destruct (parse_expression_spec toks false oc OK L) as (r & E' & X). rewrite H in E'. injection E' as <-.
      destruct X as (c & Q & X). eauto.
  - intros H. left. congruence.
  - discriminate.
Qed.
Lemma errors_count : forall toks lo cs, errors_at toks lo cs -> lo + length cs <= Nat.max lo (length toks).
Proof.
  induction 1 as [lo|lo j t c cs L N C H IH]; cbn [List.length]; [lia|].
  assert (j < length toks) by (apply nth_error_Some; congruence). lia.
Qed.

(** ** Statement positions *)
Lemma no_terminator_statement : forall toks i, scan_tokens U gs = Done (Ok toks) ->
  declarations false false toks i -> starts [Terminator] i -> forall l, parse U oc gs <> Done (Ok l).
Proof.
  intros toks i E D S l H. unfold parse, parse_with in H. rewrite E in H. cbn [obind] in H. revert H.
  eapply terminator_rejects; eauto. eapply scanned_ok; eauto.
Qed.
Lemma no_terminator_line : forall toks i, scan_tokens U gs = Done (Ok toks) ->
  declarations true false toks i -> starts [Terminator] i -> forall l, parse_repl_line U oc gs <> Done (Ok l).
Proof.
  intros toks i E D S l H. unfold parse_repl_line, parse_with in H. rewrite E in H. cbn [obind] in H. revert H.
  eapply terminator_rejects; eauto. eapply scanned_ok; eauto.
Qed.
Lemma bad_assignment_expression : forall toks e t r, scan_tokens U gs = Done (Ok toks) ->
  derives false false Target toks (VE e) (t :: r) -> t_type t = Equal -> ~ assignable e ->
  forall e', parse_expression U oc gs <> Done (Ok e').
Proof.
  intros toks e t r E T K NA e' H. unfold parse_expression, parse_with in H. rewrite E in H. cbn [obind] in H.
  revert H. eapply bad_target_expression; eauto. eapply scanned_ok; eauto.
Qed.
Lemma bad_assignment_statement : forall toks i e t r, scan_tokens U gs = Done (Ok toks) ->
  declarations false false toks i -> derives false false Target i (VE e) (t :: r) -> t_type t = Equal ->
  ~ assignable e -> ~ starts [LeftBrace; Fun] i -> forall l, parse U oc gs <> Done (Ok l).
Proof.
  intros toks i e t r E D T K NA NF l H. unfold parse, parse_with in H. rewrite E in H. cbn [obind] in H.
  revert H. eapply bad_target_program; eauto. eapply scanned_ok; eauto.
Qed.
Lemma statement_sequence : forall toks l, scan_tokens U gs = Done (Ok toks) -> parse U oc gs = Done (Ok l) ->
  exists eof, t_type eof = Eof /\ declarations false false toks [eof].
Proof.
  intros toks l E H. apply (parse_exact U Sn oc gs V toks l E) in H. destruct H as (eof & K & H).
  exists eof. split; auto. eapply program_declarations; eauto.
Qed.
Lemma increment_from_for : forall ps c b e, tree_parts U oc gs ps -> In (PStmt (SWhileIncrement c b e)) ps ->
  exists toks t, scan_tokens U gs = Done (Ok toks) /\ In t toks /\ t_type t = For.
Proof.
  intros ps c b e A I. destruct (locations ps A) as (toks & E & F). rewrite Forall_forall in F.
  destruct (F _ I) as (l & t & T & K & _). eauto.
Qed.
End Final.

Lemma same_programs : forall U gs l, sane U -> valid_source gs ->
  (parse U true gs = Done (Ok l) <-> parse U false gs = Done (Ok l)) /\
  (parse_repl_line U true gs = Done (Ok l) <-> parse_repl_line U false gs = Done (Ok l)).
Proof.
  intros U gs l Sn V. unfold parse, parse_repl_line, parse_with.
  destruct (scan_three U Sn gs V) as [(toks & E & OK)|[(errs & E)|E]]; rewrite E; cbn [obind]; try tauto.
  rewrite !parse_tokens_exact by auto. tauto.
Qed.

(** ** Witnesses *)
Definition stray_break : list string :=
  segment ("while (a)" ++ s_nl ++ "  fun f()" ++ s_nl ++ "    break" ++ s_nl)%string.
Lemma same_function_refuted :
  ~ (forall U oc gs l f, sane U -> valid_source gs -> accepted U oc gs l ->
     In (PFun f) (program_parts l) -> fun_strays f = nil).
Proof.
  intros H.
  assert (X := H sample_unicode true stray_break).
  destruct (parse sample_unicode true stray_break) as [[l|]| | |] eqn:E; vm_compute in E; try discriminate.
  injection E as E.
  specialize (X l (FunDef nil [SBreak (mkLoc 3 5)] PlainFunction (mkLoc 2 7)) sample_sane
    ltac:(apply check_valid; vm_compute; reflexivity)).
  assert (A : accepted sample_unicode true stray_break l).
  { left. subst l. vm_compute. reflexivity. }
  specialize (X A ltac:(subst l; vm_compute; tauto)). discriminate.
Qed.
Lemma newline_suffices_refuted :
  ~ (forall U oc gs l, sane U -> valid_source gs -> parse_repl_line U oc gs = Done (Ok l) ->
     parse U oc gs = Done (Ok l) \/ parse U oc (gs ++ [s_nl]) = Done (Ok l)).
Proof.
  intros H. specialize (H sample_unicode true [" "; " "; "1"]).
  destruct (parse_repl_line sample_unicode true [" "; " "; "1"]) as [[l|]| | |] eqn:E; vm_compute in E; try discriminate.
  specialize (H l sample_sane ltac:(apply check_valid; vm_compute; reflexivity) eq_refl).
  destruct H as [H|H]; vm_compute in H; discriminate.
Qed.
