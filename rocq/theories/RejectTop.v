(** The errors the parser's entry points report are those of SpecReject.v. *)
From Verif Require Import Base F64 Token Ast Scanner Parser SpecGrammar ParseRun ParseSound
  ParseTop ParseComplete SpecReject ParseReject.
From Coq Require Import Lia.

Lemma is_sync_iff : forall k, is_sync_type k = true <-> In k resumes.
Proof. intros k. rewrite <- tt_mem_iff. destruct k; vm_compute; split; auto. Qed.
Lemma before_end_some : forall toks, 1 < length toks -> exists t, before_end toks = Some t.
Proof.
  induction toks as [|a [|b [|c l]] IH]; cbn [length]; intros L; try lia; [eexists; reflexivity|].
  apply IH. cbn [length]. lia.
Qed.

Section Top.
Variable toks : list token.
Variable trailing oc : bool.
Hypothesis OK : tokens_ok toks.
Notation rest := (rest toks).
Notation inside := ParseRun.inside.

Lemma step_over : forall s, cur s < length toks -> is_at_end toks s = false ->
  exists t i, rest s = t :: i /\ t_type t <> Eof /\ nth_error toks (cur s) = Some t /\
    rest (advance_st toks s) = i.
Proof.
  intros s L E. assert (V := not_end_valid toks s L E). destruct (valid_rest toks s V) as (t & i & R).
  assert (K : t_type t <> Eof).
  { intros K. assert (is_at_end toks s = true); [|congruence]. apply at_end_iff; auto.
    rewrite R. now apply starts_one. }
  destruct (advance_took toks OK s t i V R K) as (V' & [R' C] & LL).
  exists t, i. split; auto. split; auto. split.
  - assert (Z := rest_nth toks s). unfold peek in Z. now rewrite Z, R.
  - rewrite R in R'. now injection R'.
Qed.
Lemma sync_loop_recovers : forall fuel s t s', cur s < length toks -> 
  synchronize_loop toks oc fuel s = POk tt s' -> nth_error toks (cur s - 1) = Some t -> 0 < cur s ->
  t_type t <> Eof -> recovers (t :: rest s) (rest s').
Proof.
  induction fuel as [|f IH]; intros s t s' L H N P K; cbn [synchronize_loop] in H.
  - destruct (is_at_end toks s) eqn:E; [|discriminate]. injection H as <-. apply end_eof in E; auto.
    destruct (in_dec token_type_eq_dec (t_type t) resumes); [now apply rv_after|].
    apply rv_skip; [intros [|]; auto|now apply rv_end].
  - destruct (is_at_end toks s) eqn:E.
    { injection H as <-. apply end_eof in E; auto.
      destruct (in_dec token_type_eq_dec (t_type t) resumes); [now apply rv_after|].
      apply rv_skip; [intros [|]; auto|now apply rv_end]. }
    unfold pbind at 1, previous in H. destruct (cur s) as [|m] eqn:C; [lia|].
    cbn [Nat.sub] in N. rewrite Nat.sub_0_r in N. rewrite N in H.
    destruct (is_sync_type (t_type t)) eqn:S.
    + unfold pret in H. injection H as <-. apply rv_after. now apply is_sync_iff.
    + assert (I : ~ In (t_type t) (Eof :: resumes)).
      { intros [|I]; auto. apply is_sync_iff in I. congruence. }
      apply rv_skip; auto. rewrite <- C in L.
      destruct (step_over s L E) as (u & i & R & KU & NU & RU).
      destruct (advance_le toks OK s L) as (L1 & LL & [[E1 _]|[_ C1]]); [congruence|].
      unfold pbind, advance in H. rewrite R. rewrite <- RU.
      apply (IH (advance_st toks s) u s'); auto; try lia. rewrite C1. cbn. now rewrite Nat.sub_0_r.
Qed.
Lemma synchronize_recovers : forall s s', valid toks s -> synchronize toks oc s = POk tt s' ->
  recovers (rest s) (rest s').
Proof.
  intros s s' V H. unfold synchronize, pbind, advance in H.
  destruct (is_at_end toks s) eqn:E.
  - rewrite advance_at_end in H by auto. cbn [synchronize_loop] in H. rewrite E in H. injection H as <-.
    apply rv_end. apply end_eof; auto. apply V.
  - destruct (step_over s (proj1 V) E) as (u & i & R & KU & NU & RU).
    destruct (advance_le toks OK s (proj1 V)) as (L1 & LL & [[E1 _]|[_ C1]]); [congruence|].
    rewrite R, <- RU. eapply sync_loop_recovers; eauto; try lia. rewrite C1. cbn. now rewrite Nat.sub_0_r.
Qed.

Section Ending.
Variable ending : token.
Hypothesis ENDING : before_end toks = Some ending.

Lemma parse_loop_reports : forall fuel stmts errs s st' es s', cur s < length toks ->
  length toks < fuel + cur s ->
  parse_loop toks trailing oc fuel stmts errs s = Done (st', es, s') ->
  exists cs, es = errs ++ cs /\ reports trailing ending (inside s) (rest s) cs.
Proof.
  induction fuel as [|f IH]; intros stmts errs s st' es s' L F H; [lia|]. cbn [parse_loop] in H.
  destruct (is_at_end toks s) eqn:E.
  { injection H as <- <- <-. exists nil. rewrite app_nil_r. split; auto. apply rp_end. now apply end_eof. }
  assert (V := not_end_valid toks s L E).
  assert (O : okay toks (inside s) s) by (split; auto).
  assert (RM : room toks (nesting_fuel toks) s) by (unfold room, nesting_fuel; lia).
  destruct (level_sound toks trailing oc OK (nesting_fuel toks)) as (_ & _ & HD).
  destruct (level_err toks trailing oc OK ending ENDING (nesting_fuel toks)) as (_ & _ & ED).
  specialize (HD (inside s) s O RM). specialize (ED (inside s) s O RM). unfold run in HD. unfold Err in ED.
  destruct (k_decl (level toks trailing oc (nesting_fuel toks)) s) as [d s1|c s1|w|]; [| |tauto|tauto].
  - destruct HD as [(V1 & I1 & C1 & L1) [HD C]].
    destruct (IH _ _ _ _ _ _ (proj1 V1) ltac:(lia) H) as (cs & -> & R).
    exists cs. split; auto. rewrite I1 in R. eapply rp_declaration; eauto.
  - destruct (ED c s1 eq_refl) as (lk & RJ & LP). clear ED.
    destruct HD as (V1 & C1 & L1 & _).
    destruct (synchronize_ok toks oc OK s1 V1) as (s2 & SY & L2 & LL2 & PR). rewrite SY in H.
    assert (RV := synchronize_recovers s1 s2 V1 SY).
    assert (IN : inside s2 = inside s || lk).
    { unfold ParseRun.inside. rewrite LL2, LP. destruct lk.
      - rewrite orb_true_r. apply Nat.ltb_lt. lia.
      - now rewrite Nat.add_0_r, orb_false_r. }
    assert (NS : ~ starts [Eof] (rest s)).
    { intros S. apply at_end_iff in S; auto. congruence. }
    destruct PR as [PR|[E1 ->]].
    + destruct (IH _ _ _ _ _ _ L2 ltac:(lia) H) as (cs & -> & R).
      exists (c :: cs). rewrite <- app_assoc. split; auto. rewrite IN in R.
      apply (rp_error _ _ _ _ _ _ _ NS RJ RV R).
    + destruct f as [|f]; [lia|]. cbn [parse_loop] in H. rewrite E1 in H. injection H as <- <- <-.
      exists [c]. split; auto. apply (rp_error _ _ _ _ _ _ _ NS RJ RV). apply rp_end.
      apply end_eof; auto.
Qed.
End Ending.

Lemma parse_tokens_reports : exists r, parse_tokens toks trailing oc = Done r /\
  program_errors trailing toks (match r with Ok _ => nil | Base.Err cs => cs end).
Proof.
  unfold parse_tokens, program_errors.
  destruct (parse_loop_spec toks trailing oc OK (loop_fuel toks) nil nil (mkP 0 0))
    as (st & es & s' & H & L & E & EA & DE).
  - exact (toks_nonempty toks OK).
  - cbn. unfold loop_fuel. lia.
  - rewrite H. cbn [obind app]. rewrite consume_eof by auto. eexists. split; [reflexivity|].
    destruct (before_end toks) as [t|] eqn:B.
    + apply (parse_loop_reports t B) in H; [|exact (toks_nonempty toks OK)|cbn; unfold loop_fuel; lia].
      destruct H as (cs & EC & R). cbn in EC. subst cs. destruct es; exact R.
    + destruct (le_lt_dec (length toks) 1) as [LE|LT].
      * assert (P := toks_nonempty toks OK).
        assert (A : is_at_end toks (mkP 0 0) = true).
        { destruct OK as [(body & eof & Q & K & F) _ _]. rewrite Q in LE.
          rewrite app_length in LE. cbn in LE. destruct body; [|cbn in LE; lia].
          unfold is_at_end, peek. rewrite Q. cbn. now rewrite K. }
        unfold loop_fuel in H. cbn [parse_loop] in H. rewrite A in H. now injection H as _ <- _.
      * destruct (before_end_some toks LT) as (t & Z). congruence.
Qed.
End Top.
