(** Lines added at the end of a program change at most its last statement. *)
From Verif Require Import Base F64 Token Ast Scanner Parser SpecGrammar SpecLex SpecLayout SpecScan SpecTree
  ScanLex ScanStep ScanLayout ScanUnique ScanProps ScanErrors ScanPairs ScanFinal ConcatScan ParseRun ParseFirst ParseMore ParseProps RejectFinal SizeTree
  Prefix PrefixScan PrefixFinal Stable.
From Coq Require Import ZArith Lia.

(** ** Text *)
Definition line_closing (e : elem) : Prop :=
  match e with Newline | Continuation _ => True | _ => False end.
Lemma lexeme_extend U e rest d : lexeme U e rest -> rest <> nil -> rest <> ["."%string] -> lexeme U e (rest ++ d).
Proof.
  intros L N D. destruct rest as [|x rest]; [contradiction|].
  inversion L; subst; try (econstructor; eauto; fail).
  constructor; auto. intros (y & r & Q & K). injection Q as -> Q. destruct rest as [|z rest]; [contradiction|].
  injection Q as -> <-. match goal with H : ~ _ |- _ => apply H end. eauto.
Qed.
Lemma lexes_dot U es : lexes U ["."%string] es -> es = [Tok Dot ["."%string] None None].
Proof.
  intros L. destruct (lexes_total U nil) as [es' _].
  assert (L' : lexes U ["."%string] [Tok Dot ["."%string] None None]).
  { apply (LexCons U (Tok Dot ["."%string] None None) nil nil); [|constructor]. apply LPunct. cbn. tauto. }
  exact (lexes_unique U _ _ L' _ L).
Qed.
Lemma lexes_extend U d : forall es gs e, lexes U gs (es ++ [e]) -> line_closing e ->
  exists es', lexes U (gs ++ d) ((es ++ [e]) ++ es').
Proof.
  induction es as [|x es IH]; intros gs e L C; cbn [app] in *.
  - inversion L as [|? rest ? L1 L2]; subst. inversion L2; subst. rewrite app_nil_r.
    destruct (lexes_total U d) as [es' L']. exists es'. constructor; auto.
    destruct e; try contradiction; inversion L1; subst; now constructor.
  - inversion L as [|? rest ? L1 L2]; subst. destruct (IH _ _ L2 C) as (es' & L'). exists es'.
    rewrite <- app_assoc. constructor; auto. apply lexeme_extend; auto.
    + intros ->. inversion L2 as [Q|? ? ? L3 _ Q]; subst; [now destruct es|].
      apply app_eq_nil in Q. destruct Q as [Q _]. revert Q. eapply lexeme_text_nonempty; eauto.
    + intros ->. apply lexes_dot in L2. destruct es as [|? [|]]; injection L2 as; subst; try contradiction; try discriminate.
Qed.
Lemma last_line_closing U gs es e : sane U -> lexes U (gs ++ [s_nl]) (es ++ [e]) ->
  (forall t, e <> OpenString t) -> line_closing e.
Proof.
  intros Sn L NE.
  assert (X : lexes U (elem_text e) [e] /\ exists x, elem_text e = x ++ [s_nl]).
  { assert (G := lexes_text U _ _ L). rewrite text_of_app in G.
    assert (L1 : lexeme U e nil).
    { clear - L. revert L. generalize (gs ++ [s_nl]). induction es as [|a es IH]; intros l L; inversion L as [|? rest ? A B]; subst.
      - inversion B; subst. exact A.
      - exact (IH _ B). }
    assert (E : text_of [e] = elem_text e) by (unfold text_of; cbn; apply app_nil_r). rewrite E in G.
    split; [rewrite <- (app_nil_r (elem_text e)); constructor; [auto|constructor]|].
    assert (N := lexeme_text_nonempty _ _ _ L1). destruct (exists_last N) as (x & g & Q). rewrite Q, app_assoc in G.
    apply app_inj_tail in G. destruct G as [_ <-]. eauto. }
  destruct X as [L1 (x & Q)]. inversion L1 as [|? rest ? L2 L3]; subst. clear L1 L3 L.
  assert (B : In s_nl (elem_text e)) by (rewrite Q; apply in_or_app; right; now left).
  assert (Z : last (elem_text e) EmptyString = s_nl) by (rewrite Q; apply last_last).
  clear Q H.
  inversion L2; subst; try exact I; cbn [elem_text] in *; exfalso.
  - cbn in Z. subst g. cbn in H. intuition discriminate.
  - discriminate Z.
  - cbn in Z. subst g. cbn in H. intuition discriminate.
  - discriminate Z.
  - destruct B as [B|[B|B]]; try discriminate B. rewrite Forall_forall in H. now apply H in B.
  - change (s_quote :: body ++ [s_quote]) with ((s_quote :: body) ++ [s_quote]) in Z. rewrite last_last in Z. discriminate Z.
  - now apply (NE (s_quote :: body)).
  - rewrite Forall_forall in H0. apply H0 in B. cbn in B. intuition discriminate.
  - apply in_app_or in B. rewrite Forall_forall in H0, H2. destruct B as [B|[B|B]]; [apply H0 in B|discriminate B|apply H2 in B];
      cbn in B; intuition discriminate.
  - destruct B as [->|B].
    + apply H. cbn. tauto.
    + rewrite Forall_forall in H2. apply H2 in B. destruct B as (c & F & K). cbn in F. injection F as <-.
      unfold sane in Sn. destruct K as [K|K]; congruence.
  - discriminate Z.
  - discriminate Z.
  - discriminate Z.
  - destruct B as [B|B]; [discriminate B|]. apply repeat_spec in B. discriminate B.
  - destruct B as [B|B]; [discriminate B|]. apply in_app_or in B. destruct B as [B|[B|[]]]; [apply repeat_spec in B|]; discriminate B.
  - cbn in Z. subst g. apply H. cbn. tauto.
Qed.

(** ** Tokens *)
Lemma split_closing ps : forall acc bf e, line_closing e ->
  exists L, split_lines acc (ps ++ [(bf, e)]) = L ++ [mkLine nil ByEof] /\
    forall qs, split_lines acc ((ps ++ [(bf, e)]) ++ qs) = L ++ split_lines nil qs.
Proof.
  induction ps as [|[b x] ps IH]; intros acc bf e C; cbn [app split_lines].
  - destruct e; try contradiction; eexists [_]; split; reflexivity.
  - destruct x; try (apply IH; exact C);
      destruct (IH nil bf e C) as (L & A & B); eexists (_ :: L); rewrite A; (split; [reflexivity|]); intros qs; now rewrite B.
Qed.
Section Sources.
Variables (U : unicode) (Sn : sane U).
Theorem scan_extend c d tc t2 : valid_source ((c ++ [s_nl]) ++ d) -> scan_tokens U (c ++ [s_nl]) = Done (Ok tc) ->
  scan_tokens U ((c ++ [s_nl]) ++ d) = Done (Ok t2) ->
  exists X outs eof R, tc = X ++ outs ++ [eof] /\ Forall (fun t => t_type t = Outdent) outs /\ t_type eof = Eof /\
    t2 = X ++ R.
Proof.
  intros V Sc S2. assert (Vc := valid_prefix _ _ V). destruct (lexes_total U (c ++ [s_nl])) as [es L].
  destruct es as [|e es] using rev_ind. { inversion L as [Q|]. now destruct c. } clear IHes.
  assert (LC : line_closing e).
  { eapply last_line_closing; eauto. intros x ->.
    destruct (fails_exactly U Sn _ _ _ Vc L Sc) as [[_ H] _]. destruct H as [errs Q]; [|discriminate Q].
    left. exists (OpenString x). split; auto. apply in_or_app. right. now left. }
  destruct (lexes_extend U d _ _ _ L LC) as (es' & L2).
  rewrite (scan_correct U Sn _ _ Vc L) in Sc. rewrite (scan_correct U Sn _ _ V L2) in S2. unfold scan_spec in *.
  rewrite (place_app (es ++ [e])) in S2. rewrite place_app in Sc, S2. cbn [place] in Sc, S2.
  destruct (split_closing (place nil es) nil (nil ++ text_of es) e LC) as (ls & A & B).
  rewrite A, layout_app in Sc. rewrite B, layout_app in S2.
  destruct (layout nil false None ls) as [[[toks errs] st]|]; cbn [glue] in *; [|discriminate]. cbn in Sc.
  destruct errs as [|]; [|discriminate]. injection Sc as <-.
  destruct (layout st _ _ (split_lines nil _)) as [[[toks' errs'] st']|]; [|discriminate].
  cbn in S2. destruct errs' as [|]; [|discriminate]. injection S2 as <-.
  unfold closing. rewrite app_nil_r, <- app_assoc. eexists toks, _, _, _. split; [reflexivity|].
  split; [|split; reflexivity]. apply Forall_forall. intros t I. now apply repeat_spec in I as ->.
Qed.

(** ** Statements *)
Lemma starts_type ks k t i : starts ks (t :: i) -> t_type t = k -> In k ks.
Proof. intros S <-. exact S. Qed.
Lemma expression_line b T st r u q : derives false b Declaration T (VS st) r -> T = u :: q ->
  In (t_type u) [Identifier; TString] -> exists t, In t q /\ t_type t = Terminator.
Proof.
  intros D Q I.
  assert (X : derives false b ExpressionStatement T (VS st) r).
  { subst T. inversion D; subst; clear D; try match goal with H : derives _ _ Statement _ _ _ |- _ => inversion H; subst; clear H; auto end; exfalso;
      repeat match goal with
      | H : token_then _ (_ :: _) _ |- _ => destruct H as (? & Q & ?); injection Q; intros; subst; clear Q
      | H : derives _ _ (VarDeclaration _) (_ :: _) _ _ |- _ => inversion H; subst; clear H
      | H : opens _ (_ :: _) _ |- _ => inversion H; subst; clear H
      | H : derives _ _ Block (_ :: _) _ _ |- _ => inversion H; subst; clear H
      end; cbn in I; intuition congruence. }
  assert (Y : exists e r1 t, derives false b Expression T (VE e) r1 /\ r1 = t :: r /\ t_type t = Terminator).
  { inversion X; subst; try discriminate. match goal with H : token_then _ _ _ |- _ => destruct H as (t & -> & K) end. eauto 8. }
  destruct Y as (e & r1 & t & Y & -> & K). apply derives_suffix in Y. destruct Y as [p Y]. subst T.
  destruct p as [|p0 p]; injection Y as -> ->.
  - exfalso. rewrite K in I. cbn in I. intuition discriminate.
  - exists t. split; auto. apply in_or_app. right. now left.
Qed.
Lemma declares_first trailing b i m T : declares trailing b i m T -> forall l e, T <> nil -> tokens_ok i ->
  derives trailing b Program i (VSs l) e -> exists l', l = m ++ l' /\ derives trailing b Program T (VSs l') e.
Proof.
  induction 1 as [|i st r1 l T D Ds IH]; intros l2 e NN OK P; [exists l2; auto|].
  assert (N1 : r1 <> nil).
  { intros ->. apply declares_suffix in Ds. destruct Ds as [[|] Q]; destruct T; discriminate || contradiction. }
  inversion P; subst.
  - exfalso. match goal with S : starts [Eof] _ |- _ => revert S end.
    eapply not_first; [exact D|discriminate|reflexivity].
  - match goal with H : derives _ _ Declaration i _ _ |- _ =>
      destruct (declaration_unambiguous _ _ _ _ _ _ _ OK D H) as [<- <-] end.
    match goal with H : derives _ _ Program r1 _ _ |- _ => destruct (IH _ _ NN ltac:(eapply suffix_ok; eauto; eapply derives_suffix; eauto) H) as (l' & -> & Z) end.
    exists l'. auto.
Qed.
Lemma stable_tokens c d tc t2 m s l2 eof eof2 : valid_source ((c ++ [s_nl]) ++ d) ->
  scan_tokens U (c ++ [s_nl]) = Done (Ok tc) -> scan_tokens U ((c ++ [s_nl]) ++ d) = Done (Ok t2) ->
  derives false false Program tc (VSs (m ++ [s])) [eof] -> derives false false Program t2 (VSs l2) [eof2] ->
  exists s' l', l2 = m ++ s' :: l'.
Proof.
  intros V Sc S2 D D2. assert (OK := source_ok U Sn _ V _ S2).
  destruct (scan_extend _ _ _ _ V Sc S2) as (X & outs & e & R & -> & FO & EE & ->).
  destruct (program_split _ _ _ (length m) _ _ D) as (T & st & r1 & Ds & Dt). { rewrite app_length. cbn. lia. }
  rewrite firstn_app, firstn_all, Nat.sub_diag in Ds. cbn [firstn] in Ds. rewrite app_nil_r in Ds.
  destruct (statement_start _ _ _ _ _ Dt) as [NT NH].
  destruct (declares_suffix _ _ _ _ _ Ds) as [p Q].
  destruct T as [|u q]; [apply statement_moves in Dt; cbn in Dt; lia|].
  destruct (app_split X p u q _ (eq_sym Q)) as [(q' & Y)|(p' & Y & Z)].
  2:{ exfalso. apply NT. assert (I : In u (outs ++ [e])) by (rewrite Z; apply in_or_app; right; now left).
      apply in_app_or in I. unfold starts. destruct I as [I|[->|[]]]; [|rewrite EE; cbn; tauto].
      rewrite Forall_forall in FO. rewrite (FO _ I). cbn; tauto. }
  subst X. rewrite <- app_assoc in Q. apply app_inv_head in Q. injection Q as Q.
  assert (W : swap (u :: q) (u :: q' ++ R) (((p ++ u :: q') ++ outs ++ [e])) ((p ++ u :: q') ++ R)).
  { rewrite <- !app_assoc. cbn [app]. rewrite Q. clear. induction p; cbn; constructor; auto. }
  assert (M : declares false false ((p ++ u :: q') ++ R) m (u :: q' ++ R)).
  { eapply declares_swap; [| | | | | |exact Ds|reflexivity|exact W].
    - reflexivity.
    - auto.
    - discriminate.
    - destruct q' as [|y q'].
      + assert (N : ~ In (t_type u) [Identifier; TString]).
        { intros I. destruct (expression_line _ _ _ _ _ _ Dt eq_refl I) as (t & J & K). rewrite <- Q in J. cbn [app] in J.
          apply in_app_or in J. destruct J as [J|[->|[]]]; [|congruence]. rewrite Forall_forall in FO. rewrite (FO _ J) in K. discriminate. }
        split; intros (t & c0 & r & Q' & I & _); injection Q' as -> _; contradiction.
      + rewrite <- Q. split; intros (t & c0 & r & Q' & I & K); injection Q' as -> -> _; eexists _, _, _; (split; [reflexivity|auto]).
    - intros I. apply NT. unfold starts in *. cbn in *. tauto.
    - exact NH. }
  destruct (declares_first _ _ _ _ _ M _ _ ltac:(discriminate) OK D2) as (l' & -> & Z).
  destruct l' as [|s' l']; [|eauto]. exfalso. inversion Z; subst. apply NT. unfold starts in *. cbn in *. tauto.
Qed.
Theorem stable oc c d m s l2 : valid_source ((c ++ [s_nl]) ++ d) ->
  parse U oc (c ++ [s_nl]) = Done (Ok (m ++ [s])) -> parse U oc ((c ++ [s_nl]) ++ d) = Done (Ok l2) ->
  exists s' l', l2 = m ++ s' :: l'.
Proof.
  intros V P P2. assert (Vc := valid_prefix _ _ V).
  destruct (scan_tokens U (c ++ [s_nl])) as [[tc|]| | |] eqn:Sc; try (unfold parse, parse_with in P; rewrite Sc in P; discriminate).
  destruct (scan_tokens U ((c ++ [s_nl]) ++ d)) as [[t2|]| | |] eqn:S2; try (unfold parse, parse_with in P2; rewrite S2 in P2; discriminate).
  destruct (proj1 (parse_exact U Sn oc _ Vc tc _ Sc) P) as (eof & E & D).
  destruct (proj1 (parse_exact U Sn oc _ V t2 _ S2) P2) as (eof2 & E2 & D2).
  eapply stable_tokens; eauto.
Qed.
End Sources.
