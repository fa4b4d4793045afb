(** The parser's entry points: consequences of exactness. *)
From Verif Require Import Base F64 Token Ast AstInd Scanner Parser SpecLex SpecLayout SpecScan
  SpecGrammar SpecTree SpecPrint ScanFinal
  ParseRun ParseSound ParseTop ParseFirst ParseComplete ParseTree ParseLoops PrintParse.
From Coq Require Import Lia.

(** ** Scanned tokens *)
Lemma scanned_ok : forall U gs toks, sane U -> valid_source gs ->
  scan_tokens U gs = Done (Ok toks) -> tokens_ok toks.
Proof.
  intros U gs toks Sn V H. split.
  - destruct (ends_in_eof U Sn gs toks V H) as (pre & l & c & E & F). eauto.
  - apply Forall_forall. intros t I K. destruct (numbers U Sn gs toks t V H I K) as (? & ? & ? & ? & x & _ & _ & -> & _).
    discriminate.
  - apply Forall_forall. intros t I K. destruct (strings U Sn gs toks t V H I K) as (? & ? & ? & _ & _ & -> & _).
    discriminate.
Qed.

(** ** Totality *)
Section Total.
Variable U : unicode.
Hypothesis Sn : sane U.
Variable oc : bool.
Variable gs : list string.
Hypothesis V : valid_source gs.

Lemma scan_three : (exists toks, scan_tokens U gs = Done (Ok toks) /\ tokens_ok toks) \/
  (exists errs, scan_tokens U gs = Done (Err errs)) \/ scan_tokens U gs = Diverged.
Proof.
  destruct (never_panics U Sn gs V) as [[[toks|errs] E]|E]; eauto.
  left. exists toks. split; auto. eapply scanned_ok; eauto.
Qed.
Lemma parse_with_total : forall trailing,
  (exists r, parse_with U (fun toks => parse_tokens toks trailing oc) gs = Done r) \/
  (scan_tokens U gs = Diverged /\ parse_with U (fun toks => parse_tokens toks trailing oc) gs = Diverged).
Proof.
  intros trailing. unfold parse_with.
  destruct scan_three as [(toks & E & OK)|[(errs & E)|E]]; rewrite E; cbn [obind]; eauto.
  left. destruct (parse_tokens_spec toks trailing oc OK) as (r & -> & _). eauto.
Qed.
Lemma parse_total : (exists r, parse U oc gs = Done r) \/
  (scan_tokens U gs = Diverged /\ parse U oc gs = Diverged).
Proof. exact (parse_with_total false). Qed.
Lemma parse_repl_line_total : (exists r, parse_repl_line U oc gs = Done r) \/
  (scan_tokens U gs = Diverged /\ parse_repl_line U oc gs = Diverged).
Proof. exact (parse_with_total true). Qed.
Lemma parse_expression_total :
  match parse_expression U oc gs with
  | Done _ => True
  | Diverged => scan_tokens U gs = Diverged
  | Panicked _ => oc = true /\ exists eof, scan_tokens U gs = Done (Ok [eof])
  | OutOfFuel => False
  end.
Proof.
  unfold parse_expression, parse_with.
  destruct scan_three as [(toks & E & OK)|[(errs & E)|E]]; rewrite E; cbn [obind]; auto.
  destruct (Nat.eq_dec (length toks) 1) as [L|L].
  - rewrite (parse_expression_empty toks false oc OK L). destruct oc; auto. split; auto.
    destruct toks as [|t [|]]; try discriminate. eauto.
  - destruct (parse_expression_spec toks false oc OK L) as (r & -> & _). exact I.
Qed.
Lemma parse_expression_panics : forall eof, scan_tokens U gs = Done (Ok [eof]) ->
  exists w, parse_expression U true gs = Panicked w.
Proof.
  intros eof E. unfold parse_expression, parse_with. rewrite E. cbn [obind].
  rewrite (parse_expression_empty [eof] false true (scanned_ok U gs _ Sn V E) eq_refl). eauto.
Qed.

(** ** Exactness *)
Lemma parse_exact : forall toks l, scan_tokens U gs = Done (Ok toks) ->
  (parse U oc gs = Done (Ok l) <->
   exists eof, t_type eof = Eof /\ derives false false Program toks (VSs l) [eof]).
Proof.
  intros toks l E. unfold parse, parse_with. rewrite E. cbn [obind].
  apply parse_tokens_exact. eapply scanned_ok; eauto.
Qed.
Lemma parse_repl_exact : forall toks l, scan_tokens U gs = Done (Ok toks) ->
  (parse_repl_line U oc gs = Done (Ok l) <->
   exists eof, t_type eof = Eof /\ derives true false Program toks (VSs l) [eof]).
Proof.
  intros toks l E. unfold parse_repl_line, parse_with. rewrite E. cbn [obind].
  apply parse_tokens_exact. eapply scanned_ok; eauto.
Qed.
Lemma parse_expression_exact' : forall toks e, scan_tokens U gs = Done (Ok toks) ->
  (parse_expression U oc gs = Done (Ok e) <->
   exists eof, t_type eof = Eof /\ derives false false Expression toks (VE e) [eof]).
Proof.
  intros toks e E. unfold parse_expression, parse_with. rewrite E. cbn [obind].
  apply parse_expression_exact. eapply scanned_ok; eauto.
Qed.
Lemma parse_ok_scans : forall trailing l,
  parse_with U (fun toks => parse_tokens toks trailing oc) gs = Done (Ok l) ->
  exists toks, scan_tokens U gs = Done (Ok toks) /\ parse_tokens toks trailing oc = Done (Ok l) /\ tokens_ok toks.
Proof.
  intros trailing l. unfold parse_with.
  destruct scan_three as [(toks & E & OK)|[(errs & E)|E]]; rewrite E; cbn [obind]; try discriminate. eauto.
Qed.

(** ** Errors *)
Lemma parse_errors : forall trailing cs,
  parse_with U (fun toks => parse_tokens toks trailing oc) gs = Done (Err cs) ->
  scan_tokens U gs = Done (Err cs) \/
  exists toks, scan_tokens U gs = Done (Ok toks) /\ cs <> nil /\ errors_at toks 0 cs.
Proof.
  intros trailing cs. unfold parse_with.
  destruct scan_three as [(toks & E & OK)|[(errs & E)|E]]; rewrite E; cbn [obind].
  - intros H. right. exists toks. split; auto.
    destruct (parse_tokens_spec toks trailing oc OK) as (r & E' & X). rewrite H in E'. injection E' as <-. exact X.
  - intros H. left. congruence.
  - discriminate.
Qed.
End Total.

(** ** Trees *)
Lemma tree_shaped : forall toks trailing oc l, tokens_ok toks -> parse_tokens toks trailing oc = Done (Ok l) ->
  Forall (shaped toks) (program_parts l) /\ loops_enclose l.
Proof.
  intros toks trailing oc l OK H. apply parse_tokens_exact in H; auto. destruct H as (eof & K & H). split.
  - exact (program_shaped toks trailing l [eof] H).
  - exact (loops_ok trailing toks l [eof] H).
Qed.
Lemma tree_well_formed : forall toks trailing oc l, tokens_ok toks -> parse_tokens toks trailing oc = Done (Ok l) ->
  well_formed l.
Proof.
  intros toks trailing oc l OK H. destruct (tree_shaped _ _ _ _ OK H) as [S L]. split; auto.
  eapply Forall_impl; [|exact S]. unfold shaped, well_formed_part. tauto.
Qed.

(** ** Printing *)
Lemma commas_forall : forall (P : token -> Prop) ls, P (punct Comma) -> Forall (Forall P) ls -> Forall P (commas ls).
Proof.
  intros P ls C F. induction F as [|a r A F IH]; cbn; auto. apply Forall_app. split; auto.
  destruct r; auto.
Qed.
Definition plain_token (t : token) : Prop := t_type t <> Eof /\
  (t_type t = Number -> t_float t <> None) /\ (t_type t = TString -> t_string t <> None).
Lemma plain_tok : forall k x l, existsb (tt_eqb k) [Eof; Number; TString] = false -> plain_token (tok k x l).
Proof. intros k x l E. destruct k; try discriminate; repeat split; cbn; discriminate. Qed.
Lemma plain_string : forall x, plain_token (string_tok x).
Proof. repeat split; discriminate. Qed.
Lemma plain_number : forall x, plain_token (number_tok x).
Proof. repeat split; discriminate. Qed.
Lemma plain_params : forall ps, Forall plain_token (print_params ps).
Proof.
  intros ps. apply commas_forall; [now apply plain_tok|]. apply Forall_map, Forall_forall. intros p _.
  constructor; auto. now apply plain_tok.
Qed.
Lemma flat_forall : forall A (P : token -> Prop) (f : A -> list token) l, Forall (fun a => Forall P (f a)) l ->
  Forall P (flat_map f l).
Proof. intros A P f l F. induction F; cbn; auto. apply Forall_app. auto. Qed.
Lemma open_tokens : forall (P : token -> Prop) e, P (punct Comma) -> Forall P (print_expr e) -> Forall P (print_open e).
Proof.
  intros P e C. induction e; cbn [print_expr print_open]; intros H; auto;
    try (apply Forall_app in H; destruct H as [H1 H2]; apply Forall_app; auto; fail).
  apply Forall_cons_iff in H. destruct H as [_ H]. apply Forall_app in H. destruct H as [H _]. apply Forall_app. auto.
Qed.
Lemma print_plain : (forall st, Forall plain_token (print_stmt st)) /\ (forall e, Forall plain_token (print_expr e)) /\
  (forall c, Forall plain_token (print_stmt (SClass c))) /\ (forall f, Forall plain_token (print_fun f)).
Proof.
  assert (PT : forall k, existsb (tt_eqb k) [Eof; Number; TString] = false -> plain_token (punct k))
    by (intros; now apply plain_tok).
  assert (FP : forall ps, Forall plain_token (print_params ps)) by exact plain_params.
  assert (CM : forall es, Forall (fun e => Forall plain_token (print_expr e)) es ->
    Forall plain_token (commas (map print_expr es))).
  { intros es F. apply commas_forall; [now apply PT|]. now apply Forall_map. }
  Ltac plain := repeat first
    [ apply Forall_nil | apply Forall_cons | (apply Forall_app; split) | assumption
    | apply plain_string | apply plain_number | (apply plain_tok; reflexivity) | (apply flat_forall; assumption) ].
  apply tree_ind; intros; cbn [print_stmt print_expr print_fun]; plain; auto.
  - destruct (brace_first e); plain. destruct (empty_first e); cbn [negb]; [|apply open_tokens; [now apply PT|assumption]].
    destruct e; cbn [print_expr] in *; plain;
      repeat match goal with
      | H : Forall _ (_ ++ _) |- _ => apply Forall_app in H; destruct H
      | H : Forall _ (_ :: _) |- _ => inversion H; subst; clear H
      end; plain.
  - destruct e; cbn in *; plain.
  - apply plain_tok. destruct op; reflexivity.
  - destruct b; now apply plain_tok.
  - apply commas_forall; [now apply PT|]. apply Forall_map. eapply Forall_impl; [|exact H].
    intros [k e] X. cbn in X. plain.
  - apply plain_tok. destruct op; reflexivity.
  - apply plain_tok. destruct (String.eqb x "this"); reflexivity.
  - apply plain_tok. destruct op; reflexivity.
  - destruct s as [[]|]; plain.
  - apply flat_forall. eapply Forall_impl; [|exact H0]. intros [m [ps body k l']] X. cbn [Pn] in X.
    revert X. generalize (print_fun (FunDef ps body k l')). intros q X. destruct k; plain.
Qed.
Lemma print_ok : forall l, tokens_ok (print_program l).
Proof.
  intros l. unfold print_program.
  assert (F : Forall plain_token (flat_map print_stmt l)).
  { apply flat_forall, Forall_forall. intros st _. apply print_plain. }
  split.
  - exists (flat_map print_stmt l), (punct Eof). split; auto. split; auto.
    eapply Forall_impl; [|exact F]. now intros t [].
  - apply Forall_app. split; [|constructor; auto; discriminate]. eapply Forall_impl; [|exact F].
    intros t (_ & H & _). exact H.
  - apply Forall_app. split; [|constructor; auto; discriminate]. eapply Forall_impl; [|exact F].
    intros t (_ & _ & H). exact H.
Qed.
(** Printing a well-formed program and parsing gives the program back. *)
Lemma print_parse : forall l trailing oc, well_formed l ->
  parse_tokens (print_program l) trailing oc = Done (Ok l).
Proof.
  intros l trailing oc W. apply parse_tokens_exact; [apply print_ok|].
  exists (punct Eof). split; auto. now apply print_derives.
Qed.
(** The trees the parser returns are exactly the well-formed ones. *)
Lemma image : forall l trailing oc, well_formed l <->
  exists toks, tokens_ok toks /\ parse_tokens toks trailing oc = Done (Ok l).
Proof.
  intros l trailing oc. split.
  - intros W. exists (print_program l). split; [apply print_ok|now apply print_parse].
  - intros (toks & OK & H). eapply tree_well_formed; eauto.
Qed.
