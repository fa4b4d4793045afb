(** The parser's entry points over token lists: totality, soundness and errors. *)
From Verif Require Import Base F64 Token Ast Scanner Parser SpecGrammar ParseRun ParseSound.
From Coq Require Import Lia.

Lemma errors_at_le : forall toks lo lo' cs, errors_at toks lo cs -> lo' <= lo -> errors_at toks lo' cs.
Proof. intros toks lo lo' cs H L. destruct H; [constructor|]. eapply ea_cons; [|eauto|eauto|eauto]. lia. Qed.

Section Top.
Variable toks : list token.
Variable trailing oc : bool.
Hypothesis OK : tokens_ok toks.
Notation rest := (rest toks).

Lemma toks_nonempty : 0 < length toks.
Proof. destruct OK as [(body & eof & -> & _) _ _]. rewrite app_length. cbn. lia. Qed.
Lemma not_end_valid : forall s, cur s < length toks -> is_at_end toks s = false -> valid toks s.
Proof.
  intros s L E. split; auto. intros _ S. destruct (rest_some toks s L) as (t & i & R).
  unfold is_at_end in E. rewrite rest_nth, R in *. cbn in *. destruct S as [S|[]].
  rewrite <- S in E. discriminate.
Qed.
Lemma end_eof : forall s, cur s < length toks -> is_at_end toks s = true -> starts [Eof] (rest s).
Proof.
  intros s L E. destruct (rest_some toks s L) as (t & i & R). unfold is_at_end in E.
  rewrite rest_nth, R in *. cbn in *. apply tt_eqb_iff in E. auto.
Qed.

(** ** Recovery *)
Lemma advance_le : forall s, cur s < length toks ->
  cur (advance_st toks s) < length toks /\ loops (advance_st toks s) = loops s /\
  (is_at_end toks s = true /\ advance_st toks s = s \/
   is_at_end toks s = false /\ cur (advance_st toks s) = S (cur s)).
Proof.
  intros s L. destruct (is_at_end toks s) eqn:E.
  - rewrite advance_at_end by auto. auto.
  - assert (V := not_end_valid s L E). destruct (valid_rest toks s V) as (t & i & R).
    destruct (advance_took toks OK s t i V R) as (V' & [_ C] & LL).
    + intros K. assert (is_at_end toks s = true); [|congruence]. apply at_end_iff; auto.
      rewrite R. now apply starts_one.
    + split; [apply V'|]. auto.
Qed.
Lemma synchronize_loop_ok : forall fuel s, cur s < length toks -> 0 < cur s ->
  length toks < fuel + cur s ->
  exists s', synchronize_loop toks oc fuel s = POk tt s' /\ cur s' < length toks /\
    cur s <= cur s' /\ loops s' = loops s.
Proof.
  induction fuel as [|f IH]; intros s L P F; [lia|]. cbn [synchronize_loop].
  destruct (is_at_end toks s) eqn:E; [exists s; auto|].
  unfold pbind at 1, previous. destruct (cur s) as [|m] eqn:C; [lia|].
  destruct (match nth_error toks m with Some t => is_sync_type (t_type t) | None => false end).
  - exists s. rewrite C. repeat split; auto.
  - unfold pbind, advance. rewrite <- C in L.
    destruct (advance_le s L) as (L1 & LL & [[E1 _]|[_ C1]]); [congruence|].
    destruct (IH (advance_st toks s)) as (s' & -> & L2 & C2 & LL2); try lia.
    exists s'. repeat split; auto; try lia; congruence.
Qed.
Lemma synchronize_ok : forall s, valid toks s ->
  exists s', synchronize toks oc s = POk tt s' /\ cur s' < length toks /\ loops s' = loops s /\
    (cur s < cur s' \/ (is_at_end toks s = true /\ s' = s)).
Proof.
  intros s V. unfold synchronize, pbind, advance.
  destruct (advance_le s (proj1 V)) as (L1 & LL & D).
  destruct D as [[E ->]|[E C]].
  - exists s. cbn [synchronize_loop]. rewrite E. split; auto. split; [apply V|]. auto.
  - destruct (synchronize_loop_ok (S (length toks)) (advance_st toks s)) as (s' & -> & L2 & C2 & LL2);
      try lia. exists s'. repeat split; auto; try lia; congruence.
Qed.

(** ** The main loop *)
Lemma parse_loop_spec : forall fuel stmts errs s, cur s < length toks ->
  length toks < fuel + cur s ->
  exists stmts' errs' s',
    parse_loop toks trailing oc fuel stmts errs s = Done (stmts ++ stmts', errs ++ errs', s') /\
    cur s' < length toks /\ is_at_end toks s' = true /\
    errors_at toks (cur s) errs' /\
    (errs' = nil -> loops s = 0 ->
     derives trailing false Program (rest s) (VSs stmts') (rest s')).
Proof.
  induction fuel as [|f IH]; intros stmts errs s L F; [lia|]. cbn [parse_loop].
  destruct (is_at_end toks s) eqn:E.
  { exists nil, nil, s. rewrite !app_nil_r. split; auto. split; auto. split; auto.
    split; [constructor|]. intros _ _. apply d_program_end. now apply end_eof. }
  assert (V := not_end_valid s L E).
  destruct (level_sound toks trailing oc OK (nesting_fuel toks)) as (_ & _ & HD).
  specialize (HD (inside s) s (conj V eq_refl)). unfold room, nesting_fuel in HD.
  specialize (HD ltac:(lia)). unfold run in HD. fold (nesting_fuel toks) in HD.
  destruct (k_decl (level toks trailing oc (nesting_fuel toks)) s) as [d s1|c s1|w|]; [| |tauto|tauto].
  - destruct HD as [(V1 & I1 & C1 & L1) [HD C]].
    destruct (IH (stmts ++ [d]) errs s1 (proj1 V1) ltac:(lia))
      as (st' & e' & s' & -> & L' & E' & EA & DE).
    exists (d :: st'), e', s'. rewrite <- app_assoc. split; auto. split; auto. split; auto.
    split; [eapply errors_at_le; eauto; lia|]. intros EN LN.
    assert (Z : inside s = false) by (unfold inside; now rewrite LN). rewrite Z in HD.
    eapply d_program_more; [exact HD|]. apply DE; auto. congruence.
  - destruct HD as (V1 & C1 & L1 & j & t & N & CN & J & D).
    assert (JC : cur s <= j).
    { destruct D as [D|[S D]]; auto. destruct (Nat.eq_dec (cur s1) (cur s)) as [X|X]; [|lia].
      exfalso. unfold ParseRun.rest in S. rewrite X in S.
      assert (is_at_end toks s = true); [|congruence]. apply at_end_iff; auto. }
    destruct (synchronize_ok s1 V1) as (s2 & SY & L2 & LL2 & PR). rewrite SY.
    destruct (Nat.lt_ge_cases (cur s1) (cur s2)) as [Z|Z].
    + destruct (IH stmts (errs ++ [c]) s2 L2 ltac:(lia))
        as (st' & e' & s' & -> & L' & E' & EA & DE).
      exists st', (c :: e'), s'. rewrite <- app_assoc. split; auto. split; auto. split; auto.
      split; [|discriminate]. apply (ea_cons toks (cur s) j t); auto.
      eapply errors_at_le; eauto. lia.
    + destruct PR as [PR|[E1 ->]]; [lia|].
      exists nil, [c], s1. rewrite app_nil_r.
      destruct f as [|f]; [lia|]. cbn [parse_loop]. rewrite E1. split; auto. split; auto. split; auto.
      split; [|discriminate]. apply (ea_cons toks (cur s) j t); auto. constructor.
Qed.

Lemma consume_eof : forall s, cur s < length toks -> is_at_end toks s = true ->
  consume toks oc Eof "Expected end of file" s = POk tt s.
Proof.
  intros s L E. unfold consume, consume_any_of, matches, pbind, gets.
  destruct (rest_some toks s L) as (t & i & R). unfold is_at_end in E.
  assert (A : is_at_end toks s = true) by exact E.
  rewrite rest_nth, R in *. cbn [hd_error] in *. apply tt_eqb_iff in E. rewrite E. cbn.
  unfold advance. now rewrite advance_at_end.
Qed.
(** What [parse] returns. *)
Lemma parse_tokens_spec :
  exists r, parse_tokens toks trailing oc = Done r /\
  match r with
  | Ok l => exists eof, t_type eof = Eof /\ derives trailing false Program toks (VSs l) [eof]
  | Err cs => cs <> nil /\ errors_at toks 0 cs
  end.
Proof.
  unfold parse_tokens.
  destruct (parse_loop_spec (loop_fuel toks) nil nil (mkP 0 0)) as (st & es & s' & -> & L & E & EA & DE).
  - exact toks_nonempty.
  - cbn. unfold loop_fuel. lia.
  - cbn [obind app]. rewrite consume_eof by auto. eexists. split; [reflexivity|].
    destruct es as [|c es].
    + assert (ST := end_eof s' L E). destruct (rest s') as [|t i] eqn:R; [contradiction|].
      apply starts_one in ST. exists t. split; auto.
      assert (i = nil) by (apply (eof_last toks OK s' t i R); auto). subst i.
      exact (DE eq_refl eq_refl).
    + split; [discriminate|auto].
Qed.

(** What [parse_expression] returns. *)
Lemma parse_expression_spec : length toks <> 1 ->
  exists r, parse_expression_tokens toks trailing oc = Done r /\
  match r with
  | Ok e => exists eof, t_type eof = Eof /\ derives trailing false Expression toks (VE e) [eof]
  | Err cs => exists c, cs = [c] /\ errors_at toks 0 cs
  end.
Proof.
  intros N1. unfold parse_expression_tokens.
  assert (P := toks_nonempty).
  assert (V : valid toks (mkP 0 0)).
  { apply not_end_valid; [exact P|]. destruct (is_at_end toks (mkP 0 0)) eqn:E; auto. exfalso.
    apply end_eof in E; [|exact P]. destruct (rest_some toks (mkP 0 0) P) as (t & i & R).
    rewrite R in E. apply starts_one in E.
    apply (eof_last toks OK _ _ _ R) in E. subst i. unfold ParseRun.rest in R. cbn in R. rewrite R in N1. now apply N1. }
  destruct (level_sound toks trailing oc OK (nesting_fuel toks)) as (HE & _ & _).
  specialize (HE false (mkP 0 0) (conj V eq_refl)). unfold room, nesting_fuel in HE.
  specialize (HE ltac:(cbn; lia)). unfold run in HE. fold (nesting_fuel toks) in HE.
  unfold pbind. destruct (k_expr (level toks trailing oc (nesting_fuel toks)) (mkP 0 0)) as [e s1|c s1|w|]; [| |tauto|tauto].
  - destruct HE as [(V1 & I1 & C1 & L1) [HE M]].
    destruct (is_at_end toks s1) eqn:E.
    + rewrite consume_eof by (auto; apply V1). cbn. eexists. split; [reflexivity|].
      assert (ST := end_eof s1 (proj1 V1) E). destruct (rest s1) as [|t i] eqn:R; [contradiction|].
      apply starts_one in ST. exists t. split; auto.
      assert (i = nil) by (apply (eof_last toks OK s1 t i R); auto). subst i. exact HE.
    + (* something follows *)
      destruct (valid_rest toks s1 V1) as (t & i & R).
      assert (K : tt_eqb (t_type t) Eof = false).
      { unfold is_at_end in E. now rewrite rest_nth, R in E. }
      unfold consume, consume_any_of, matches, gets, pbind at 1 2. rewrite rest_nth, R.
      cbn [hd_error tt_mem existsb]. rewrite K. cbn [orb].
      unfold error_from_peek, peek_source_loc, gets, pbind. cbn. rewrite rest_nth, R. cbn.
      eexists. split; [reflexivity|]. eexists. split; [reflexivity|].
      apply (ea_cons toks 0 (cur s1) t); [lia| | |constructor].
      * assert (RN := rest_nth toks s1). unfold peek in RN. now rewrite RN, R.
      * split; cbn; auto.
  - destruct HE as (V1 & C1 & L1 & j & t & N & CN & J & D). eexists. split; [reflexivity|].
    exists c. split; auto. apply (ea_cons toks 0 j t); auto; [lia|constructor].
Qed.
(** On the empty source there is only the end token. *)
Lemma parse_expression_empty : length toks = 1 ->
  parse_expression_tokens toks trailing oc =
  if oc then Panicked "attempt to subtract with overflow"
  else Done (Err [cause_new default_loc "Expect expression."]).
Proof.
  intros L. destruct OK as [(body & eof & E & K & F) _ _]. rewrite E in *.
  rewrite app_length in L. cbn in L. destruct body; [|cbn in L; lia]. cbn [app] in *. clear E.
  destruct eof as [tt lx st fl ln co]. cbn in K. subst tt. destruct oc; reflexivity.
Qed.
End Top.
