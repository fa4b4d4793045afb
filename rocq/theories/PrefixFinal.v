(** Every initial part of a program is a program. *)
From Verif Require Import Base F64 Token Ast Scanner Parser Resolver SpecLex SpecScan SpecGrammar ScanErrors ParseFirst
  SizeTree ParseProps ResolveProps Prefix PrefixScan.
From Coq Require Import ZArith Lia.

Lemma declares_suffix trailing b i l r : declares trailing b i l r -> exists p, i = p ++ r.
Proof.
  induction 1; [now exists nil|]. destruct IHdeclares as [p ->]. apply derives_suffix in H.
  destruct H as [q ->]. exists (q ++ p). now rewrite app_assoc.
Qed.
Lemma near_cut T e p p' : Forall2 near p p' -> cut T e (p ++ T) (p' ++ [e]).
Proof. induction 1; cbn; constructor; auto. Qed.

Section Sources.
Variables (U : unicode) (Sn : sane U).
Lemma cut_source gs toks trailing l k eof : valid_source gs -> scan_tokens U gs = Done (Ok toks) ->
  derives trailing false Program toks (VSs l) [eof] -> k < length l ->
  exists a b toks' e, gs = a ++ b /\ scan_tokens U a = Done (Ok toks') /\ t_type e = Eof /\
    derives trailing false Program toks' (VSs (firstn k l)) [e].
Proof.
  intros V S D K. destruct (program_split _ _ _ _ _ _ D K) as (T & st & r1 & Ds & Dt).
  destruct (statement_start _ _ _ _ _ Dt) as [NT NH].
  destruct (declares_suffix _ _ _ _ _ Ds) as [p ->]. assert (LV := declares_level _ _ _ _ _ Ds). rewrite level_app in LV.
  destruct T as [|u q]; [apply statement_moves in Dt; cbn in Dt; lia|].
  destruct (scan_cut U Sn gs p u q V S) as (a & b & p' & e & -> & Sa & Ee & N); try (intros X; apply NT; unfold starts; rewrite X; cbn; tauto); [lia|].
  exists a, b, (p' ++ [e]), e. repeat split; auto.
  eapply declares_cut; [exact Ee| |exact NH|exact Ds|reflexivity|now apply near_cut].
  intros H. apply NT. unfold starts in *. cbn in *. tauto.
Qed.

Lemma valid_prefix a b : valid_source (a ++ b) -> valid_source a.
Proof. unfold valid_source. intros V. now apply Forall_app in V. Qed.
Theorem parse_prefix oc gs l k : valid_source gs -> parse U oc gs = Done (Ok l) ->
  exists a b, gs = a ++ b /\ parse U oc a = Done (Ok (firstn k l)).
Proof.
  intros V P. destruct (Nat.lt_ge_cases k (length l)) as [K|K].
  2:{ exists gs, nil. rewrite app_nil_r, firstn_all2; auto. }
  destruct (scan_tokens U gs) as [[toks|]| | |] eqn:S; try (unfold parse, parse_with in P; rewrite S in P; discriminate).
  apply (parse_exact U Sn oc gs V toks l S) in P. destruct P as (eof & E & D).
  destruct (cut_source gs toks false l k eof V S D K) as (a & b & toks' & e & -> & Sa & Ee & Da).
  exists a, b. split; auto. apply (parse_exact U Sn oc a (valid_prefix _ _ V) toks' _ Sa). eauto.
Qed.
Theorem parse_repl_prefix oc gs l k : valid_source gs -> parse_repl_line U oc gs = Done (Ok l) ->
  exists a b, gs = a ++ b /\ parse_repl_line U oc a = Done (Ok (firstn k l)).
Proof.
  intros V P. destruct (Nat.lt_ge_cases k (length l)) as [K|K].
  2:{ exists gs, nil. rewrite app_nil_r, firstn_all2; auto. }
  destruct (scan_tokens U gs) as [[toks|]| | |] eqn:S; try (unfold parse_repl_line, parse_with in P; rewrite S in P; discriminate).
  apply (parse_repl_exact U Sn oc gs V toks l S) in P. destruct P as (eof & E & D).
  destruct (cut_source gs toks true l k eof V S D K) as (a & b & toks' & e & -> & Sa & Ee & Da).
  exists a, b. split; auto. apply (parse_repl_exact U Sn oc a (valid_prefix _ _ V) toks' _ Sa). eauto.
Qed.
End Sources.

Lemma resolved_length l : forall d errs s d' s', resolve_loop l d errs s = Done (d', nil, s') ->
  length d' = length d + length l.
Proof.
  assert (N : forall l d errs c s d' s', resolve_loop l d (errs ++ [c]) s <> Done (d', nil, s')).
  { induction l0 as [|st l0 IH]; intros d errs c s d' s'; cbn.
    - intros H. injection H as _ H _. now destruct errs.
    - destruct (resolve_statement st s) as [st'' s1|e s1|w]; [apply IH| |discriminate].
      rewrite <- app_assoc. change ([c] ++ [e]) with ([c; e]). change [c; e] with ([c] ++ [e]). rewrite app_assoc. apply IH. }
  induction l as [|st l IH]; intros d errs s d' s' H; cbn in H.
  - injection H as <- _ _. cbn. lia.
  - destruct (resolve_statement st s) as [st'' s1|e s1|w]; [|now apply N in H|discriminate].
    apply IH in H. rewrite app_length in H. cbn in *. lia.
Qed.
Theorem resolve_prefix l l' k : resolve l = Done (Ok l') -> resolve (firstn k l) = Done (Ok (firstn k l')).
Proof.
  unfold resolve. destruct resolver_new as [s| | |]; cbn [obind]; try discriminate.
  rewrite <- (firstn_skipn k l) at 1. rewrite resolve_pieces.
  destruct (resolver_resolve (firstn k l) s) as [[x s1]| | |] eqn:E1; cbn; try discriminate.
  destruct (resolver_resolve (skipn k l) s1) as [[y s2]| | |] eqn:E2; cbn; try discriminate.
  intros H. destruct x as [x|]; [|destruct y; discriminate]. destruct y as [y|]; [|discriminate]. cbn in H.
  injection H as <-. do 2 f_equal.
  unfold resolver_resolve in E1, E2.
  destruct (resolve_loop (firstn k l) nil nil s) as [[[d1 e1] s1']| | |] eqn:L1; cbn in E1; try discriminate.
  destruct (resolve_loop (skipn k l) nil nil s1) as [[[d2 e2] s2']| | |] eqn:L2; cbn in E2; try discriminate.
  destruct e1; [|discriminate]. destruct e2; [|discriminate].
  injection E1 as -> ->. injection E2 as -> ->.
  apply resolved_length in L1. apply resolved_length in L2. cbn in L1, L2.
  rewrite firstn_app, (firstn_all2 x) by (rewrite L1, firstn_length; lia).
  rewrite firstn_length in L1. rewrite skipn_length in L2.
  destruct (Nat.lt_ge_cases k (length l)).
  - replace (k - length x) with 0 by lia. cbn. now rewrite app_nil_r.
  - assert (length y = 0) by lia. destruct y; [|discriminate]. now rewrite firstn_nil, app_nil_r.
Qed.
