(** Whole lines are scanned without looking at what follows; and tables are consulted only about the text. *)
From Verif Require Import Base F64 Token Ast Scanner Parser Resolver Show Driver SpecLex SpecLayout SpecScan SpecIncremental
  ScanLex ScanStep ScanLayout ScanUnique ScanProps ScanErrors ScanPairs ScanFinal ConcatScan PrefixFinal StableFinal.

Section Lines.
Variables (U : unicode) (Sn : sane U).
Theorem scan_lines c d es : valid_source ((c ++ [s_nl]) ++ d) -> lexes U (c ++ [s_nl]) es -> strings_closed es ->
  extends (scan_tokens U (c ++ [s_nl])) (scan_tokens U ((c ++ [s_nl]) ++ d)).
Proof.
  intros V L SC. assert (Vc := valid_prefix _ _ V).
  destruct es as [|e es _] using rev_ind. { inversion L as [Q|]. now destruct c. }
  assert (LC : line_closing e).
  { eapply last_line_closing; eauto. intros x ->. apply (SC x). apply in_or_app. right. now left. }
  destruct (lexes_extend U d _ _ _ L LC) as (es' & L2).
  rewrite (scan_correct U Sn _ _ Vc L), (scan_correct U Sn _ _ V L2). unfold scan_spec in *.
  rewrite (place_app (es ++ [e])). rewrite place_app. cbn [place].
  destruct (split_closing (place nil es) nil (nil ++ text_of es) e LC) as (ls & A & B).
  rewrite A, B, !layout_app.
  destruct (layout nil false None ls) as [[[toks errs] st]|]; cbn [glue]; [|reflexivity].
  assert (Z : forall j p, layout st j p [mkLine nil ByEof] = Some (nil, nil, st)) by reflexivity. rewrite Z. rewrite !app_nil_r.
  destruct (layout st _ _ (split_lines nil _)) as [[[toks' errs'] st']|].
  - destruct errs as [|x errs]; cbn [app extends].
    + eexists toks, _, _. split; [unfold closing; reflexivity|]. split; [|split; [reflexivity|]].
      * apply Forall_forall. intros t I. now apply repeat_spec in I as ->.
      * right. destruct errs' as [|y errs']; [right|left; eauto]. rewrite <- app_assoc. eauto.
    + right. eexists. reflexivity.
  - destruct errs as [|x errs]; cbn [extends]; [|auto].
    eexists toks, _, _. split; [unfold closing; reflexivity|]. split; [|split; [reflexivity|auto]].
    apply Forall_forall. intros t I. now apply repeat_spec in I as ->.
Qed.
End Lines.

Section Tables.
Variables U U' : unicode.
Lemma starts_same g : same_class U U' g -> starts_word U g -> starts_word U' g.
Proof. intros A (c & F & H). exists c. split; auto. destruct (A c F) as [<- _]. auto. Qed.
Lemma continues_same g : same_class U U' g -> continues_word U g -> continues_word U' g.
Proof. intros A (c & F & H). exists c. split; auto. destruct (A c F) as [_ <-]. auto. Qed.
End Tables.
Lemma same_class_sym U U' g : same_class U U' g -> same_class U' U g.
Proof. intros A c F. destruct (A c F). auto. Qed.
Lemma lexeme_same U U' e rest : lexeme U e rest -> Forall (same_class U U') (elem_text e ++ rest) -> lexeme U' e rest.
Proof.
  intros L A. inversion L; subst; try (econstructor; eauto; fail).
  - cbn [elem_text] in A. inversion A as [|? ? A1 A2]; subst. apply Forall_app in A2. destruct A2 as [A2 A3].
    constructor; auto.
    + eapply starts_same; eauto.
    + rewrite Forall_forall in *. intros z I. apply (continues_same U); auto.
    + destruct rest as [|z r]; cbn in *; auto. inversion A3; subst. intros X.
      match goal with H : ~ continues_word U z |- _ => apply H end. eapply continues_same; eauto using same_class_sym.
  - cbn [elem_text app] in A. inversion A; subst. constructor; auto. intros X.
    match goal with H : ~ starts_word U g |- _ => apply H end. eapply starts_same; eauto using same_class_sym.
Qed.
Lemma lexes_same U U' gs es : lexes U gs es -> Forall (same_class U U') gs -> lexes U' gs es.
Proof.
  induction 1 as [|e rest es L _ IH]; intros A; constructor.
  - eapply lexeme_same; eauto.
  - apply IH. now apply Forall_app in A.
Qed.
Theorem scan_same U U' gs : sane U -> sane U' -> valid_source gs -> Forall (same_class U U') gs ->
  scan_tokens U gs = scan_tokens U' gs.
Proof.
  intros Sn Sn' V A. destruct (lexes_total U gs) as [es L].
  rewrite (scan_correct U Sn gs es V L), (scan_correct U' Sn' gs es V (lexes_same _ _ _ _ L A)). reflexivity.
Qed.
Lemma parse_with_same {A} U U' gs (f : list token -> outcome (result A parse_error)) : sane U -> sane U' -> valid_source gs ->
  Forall (same_class U U') gs -> parse_with U f gs = parse_with U' f gs.
Proof. intros Sn Sn' V H. unfold parse_with. now rewrite (scan_same U U' gs Sn Sn' V H). Qed.

(** ** All entry points *)
Section Entry.
Variables (U U' : unicode) (Sn : sane U) (Sn' : sane U').
Lemma parsers_same oc gs : valid_source gs -> Forall (same_class U U') gs ->
  parse U oc gs = parse U' oc gs /\ parse_repl_line U oc gs = parse_repl_line U' oc gs /\
  parse_expression U oc gs = parse_expression U' oc gs.
Proof. intros V H. unfold parse, parse_repl_line, parse_expression. split; [|split]; apply parse_with_same; auto. Qed.
Lemma drivers_same oc F name gs : valid_source gs -> Forall (same_class U U') gs ->
  main_file U oc F name (Contents gs) = main_file U' oc F name (Contents gs) /\
  parse_string U oc F gs = parse_string U' oc F gs /\ on_change U oc F gs = on_change U' oc F gs.
Proof.
  intros V H. destruct (parsers_same oc gs V H) as (A & _).
  unfold main_file, on_change, parse_string, run. rewrite A. split; [|split]; reflexivity.
Qed.
Lemma repl_same oc F l : Forall (fun i => match i with Line gs => valid_source gs /\ Forall (same_class U U') gs | Failure _ => True end) l ->
  repl U oc F l = repl U' oc F l.
Proof.
  unfold repl. generalize repl_start. induction l as [|i l IH]; intros st H; cbn [fold_left]; [reflexivity|].
  inversion H as [|? ? H1 H2]; subst.
  assert (E : repl_step U oc F st i = repl_step U' oc F st i).
  { destruct st as [r|p]; [|reflexivity]. destruct i as [gs|e]; [|reflexivity]. cbn [repl_step repl_read].
    destruct H1 as [V A]. destruct (parsers_same oc gs V A) as (_ & B & _). unfold run. rewrite B. reflexivity. }
  rewrite E. apply IH. exact H2.
Qed.
End Entry.
