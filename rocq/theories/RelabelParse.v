(** Sources with the same tokens up to positions have the same trees and errors up
    to positions. *)
From Verif Require Import Base F64 Token Ast Scanner Parser SpecLex SpecScan SpecParse ParseRun SpecPlace SpecGrammar SpecReject
  ScanFinal ScanErrors ScanUnique ParseFirst ParseComplete ParseSound ParseTop ParseProps RejectUnique RejectTop RejectFinal Relabel RelabelErrors Messages SpecMessages.

Section Tokens.
Variable trailing : bool.

Lemma recovers_alike i r : recovers i r -> forall j, alike i j -> exists s, recovers j s /\ alike r s.
Proof.
  induction 1; intros j A.
  - exists j. split; auto. constructor. eapply words_starts; [apply alike_words; exact A|assumption].
  - apply alike_cons in A. destruct A as (u & j' & -> & P & A). exists j'. split; auto.
    apply rv_after. now destruct (payload_fields _ _ P) as (<- & _).
  - apply alike_cons in A. destruct A as (u & j' & -> & P & A).
    destruct (IHrecovers _ A) as (s & R & A'). exists s. split; auto. apply rv_skip; auto.
    now destruct (payload_fields _ _ P) as (<- & _).
Qed.
Lemma reports_alike t u : payload t = payload u -> forall b i cs, reports trailing t b i cs ->
  forall j, alike i j -> exists cs', reports trailing u b j cs' /\ same_messages cs cs'.
Proof.
  intros PP. induction 1; intros j A.
  - exists nil. split; [|constructor]. constructor. eapply words_starts; [apply alike_words; exact A|assumption].
  - destruct (derives_words _ _ _ _ _ _ H j Declaration (alike_words _ _ A) eq_refl) as (v' & s & D & W & E).
    shape. assert (A' : alike r s) by (eapply words_alike; eauto; eapply derives_suffix; eauto).
    destruct (IHreports _ A') as (cs' & R & M). exists cs'. split; auto. eapply rp_declaration; eauto.
  - destruct (rejects_alike _ _ _ _ _ _ _ PP H0 _ j (table_agree _ _ _ _ _ PP) A) as (g & G & C & L & B).
    destruct (recovers_alike _ _ H1 _ L) as (s & R & A').
    destruct (IHreports _ A') as (cs' & RR & M). exists (f_cause g :: cs'). split.
    + eapply rp_error; eauto.
      * eapply words_not; [apply alike_words; exact A|assumption].
      * now rewrite <- B.
    + constructor; auto.
Qed.
Lemma before_end_alike toks toks' : alike toks toks' ->
  match before_end toks, before_end toks' with
  | Some t, Some u => payload t = payload u
  | None, None => True
  | _, _ => False
  end.
Proof.
  revert toks'. induction toks as [|a [|b [|c r]] IH]; intros toks' A.
  - apply alike_nil in A. now subst.
  - apply alike_cons in A. destruct A as (u & j' & -> & P & A). apply alike_nil in A. now subst.
  - apply alike_cons in A. destruct A as (u & j' & -> & P & A).
    apply alike_cons in A. destruct A as (v & j & -> & P' & A). apply alike_nil in A. now subst.
  - apply alike_cons in A. destruct A as (u & j' & -> & P & A). specialize (IH _ A).
    apply alike_cons in A. destruct A as (v & j & -> & P' & A).
    apply alike_cons in A. destruct A as (w & j2 & -> & P2 & A). exact IH.
Qed.
Lemma program_errors_alike toks toks' cs : alike toks toks' -> program_errors trailing toks cs ->
  exists cs', program_errors trailing toks' cs' /\ same_messages cs cs'.
Proof.
  intros A H. assert (B := before_end_alike _ _ A). unfold program_errors in *.
  destruct (before_end toks), (before_end toks'); try contradiction.
  - eapply reports_alike; eauto.
  - subst. exists nil. split; auto. constructor.
Qed.
Theorem parse_tokens_alike toks toks' oc : tokens_ok toks -> tokens_ok toks' -> alike toks toks' ->
  same_program (parse_tokens toks trailing oc) (parse_tokens toks' trailing oc).
Proof.
  intros OK OK' A. destruct (parse_tokens_spec toks trailing oc OK) as ([l|cs] & E & S); rewrite E.
  - destruct S as (eof & K & D).
    destruct (derives_words _ _ _ _ _ _ D toks' Program (alike_words _ _ A) eq_refl) as (v' & s & D' & W & X).
    shape. apply words_cons in W. destruct W as (u & s' & -> & (T & _) & W). inversion W; subst.
    assert (E' : parse_tokens toks' trailing oc = Done (Ok l0)).
    { apply parse_tokens_exact; auto. exists u. split; auto. congruence. }
    rewrite E'. exact X.
  - destruct S as [S _]. apply parse_tokens_errors in E; auto.
    destruct (program_errors_alike _ _ _ A E) as (cs' & P & M).
    apply (parse_tokens_errors _ _ oc) in P; auto; [|intros ->; inversion M; subst; now apply S].
    rewrite P. exact M.
Qed.
Theorem parse_expression_alike toks toks' oc : tokens_ok toks -> tokens_ok toks' -> alike toks toks' ->
  same_expression (parse_expression_tokens toks trailing oc) (parse_expression_tokens toks' trailing oc).
Proof.
  intros OK OK' A.
  assert (LE : length toks = length toks') by (rewrite <- (map_length payload toks), A; apply map_length).
  destruct (Nat.eq_dec (length toks) 1) as [L|L].
  - rewrite (parse_expression_empty toks trailing oc OK L), (parse_expression_empty toks' trailing oc OK') by congruence.
    destruct oc; cbn; auto. repeat constructor.
  - assert (L' : length toks' <> 1) by congruence.
    destruct (parse_expression_spec toks trailing oc OK L) as ([e|cs] & E & S); rewrite E.
    + destruct S as (eof & K & D).
      destruct (derives_words _ _ _ _ _ _ D toks' Expression (alike_words _ _ A) eq_refl) as (v' & s & D' & W & X).
      shape. apply words_cons in W. destruct W as (u & s' & -> & (T & _) & W). inversion W; subst.
      assert (E' : parse_expression_tokens toks' trailing oc = Done (Ok e0)).
      { apply parse_expression_exact; auto. exists u. split; auto. congruence. }
      rewrite E'. exact X.
    + apply parse_expression_errors in E; auto. destruct E as (c & -> & t & f & B & R & ->).
      assert (PP := before_end_alike _ _ A). rewrite B in PP. destruct (before_end toks') as [u|] eqn:B'; [|contradiction].
      destruct (rejects_alike _ _ _ _ _ _ _ PP R [Sub Expression; need [Eof] "Expected end of file"] toks') as (g & G & C & _); auto.
      { repeat constructor. }
      assert (E' : parse_expression_tokens toks' trailing oc = Done (Err [f_cause g])).
      { apply parse_expression_errors; auto. exists (f_cause g). split; auto. exists u, g. auto. }
      rewrite E'. repeat constructor; apply C.
Qed.
End Tokens.

(** ** Sources *)
Section Sources.
Variable U : unicode.
Hypothesis Sn : sane U.
Variables gs gs' : list string.
Hypothesis V : valid_source gs.
Hypothesis V' : valid_source gs'.

Lemma same_scan_errors cs cs' : same_result (scan_tokens U gs) (scan_tokens U gs') -> scan_tokens U gs = Done (Err cs) -> scan_tokens U gs' = Done (Err cs') ->
  same_messages cs cs'.
Proof.
  intros SAME E E'. rewrite E, E' in SAME. cbn in SAME.
  apply (scan_causes U Sn) in E; auto. apply (scan_causes U Sn) in E'; auto.
  clear V V'. revert cs' SAME E'. induction E as [|c cs C E IH]; intros [|c' cs'] M E'; try discriminate; constructor.
  - inversion E'; subst. injection M as M _. split; auto.
    destruct C as [-> _]. match goal with X : scan_cause _ _ |- _ => now destruct X as [-> _] end.
  - inversion E'; subst. injection M as _ M. apply IH; auto.
Qed.
Lemma parse_same oc trailing : same_result (scan_tokens U gs) (scan_tokens U gs') ->
  same_program (parse_with U (fun toks => parse_tokens toks trailing oc) gs)
               (parse_with U (fun toks => parse_tokens toks trailing oc) gs').
Proof.
  unfold parse_with. intros S. pose proof S as SAME.
  destruct (scan_tokens U gs) as [[toks|cs]| | |] eqn:E, (scan_tokens U gs') as [[toks'|cs']| | |] eqn:E';
    cbn in S; try contradiction; cbn [obind].
  - apply parse_tokens_alike; auto; [exact (source_ok U Sn gs V toks E)|exact (source_ok U Sn gs' V' toks' E')].
  - apply same_scan_errors; auto; now rewrite E, E'.
  - exact I.
Qed.
Lemma parse_expression_same oc : same_result (scan_tokens U gs) (scan_tokens U gs') ->
  same_expression (parse_expression U oc gs) (parse_expression U oc gs').
Proof.
  unfold parse_expression, parse_with. intros S. pose proof S as SAME.
  destruct (scan_tokens U gs) as [[toks|cs]| | |] eqn:E, (scan_tokens U gs') as [[toks'|cs']| | |] eqn:E';
    cbn in S; try contradiction; cbn [obind].
  - apply parse_expression_alike; auto; [exact (source_ok U Sn gs V toks E)|exact (source_ok U Sn gs' V' toks' E')].
  - apply same_scan_errors; auto; now rewrite E, E'.
  - exact I.
Qed.
End Sources.

(** ** Words *)
Lemma parse_words trailing oc toks toks' l : tokens_ok toks -> tokens_ok toks' -> Forall2 same_word toks toks' ->
  parse_tokens toks trailing oc = Done (Ok l) ->
  exists l', parse_tokens toks' trailing oc = Done (Ok l') /\ map unplaced l = map unplaced l'.
Proof.
  intros OK OK' W E. apply parse_tokens_exact in E; auto. destruct E as (eof & K & D).
  destruct (derives_words _ _ _ _ _ _ D toks' Program W eq_refl) as (v' & s & D' & W' & X).
  shape. exists l0. split; auto. apply words_cons in W'. destruct W' as (u & s' & -> & (T & _) & W'). inversion W'; subst.
  apply parse_tokens_exact; auto. exists u. split; auto. congruence.
Qed.
