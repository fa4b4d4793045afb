(** Exactly which trees can be written as a text. *)
From Verif Require Import Base F64 Token Ast AstInd Scanner Parser SpecNumber SpecLex SpecLayout SpecScan SpecTree SpecGrammar SpecPrint
  SpecPlace SpecWrite SpecParse SpecType
  ScanProps ScanFinal ScanSpaces Relabel RelabelParse ParseRun ParseComplete ParseProps ParseFinal RejectFinal WriteScan WriteFinal PrintType
  TypeTree TypeScan TypeOrder TypeExact TypePlace.
From Coq Require Import Lia.

(** ** Tokens *)
Lemma type_open_tokens : forall (P : token -> Prop) e, P (punct Comma) -> Forall P (type_expr e) -> Forall P (type_open e).
Proof.
  intros P e C. induction e; cbn [type_expr type_open]; intros H; auto;
    try (apply Forall_app in H; destruct H as [H1 H2]; apply Forall_app; auto; fail).
  apply Forall_cons_iff in H. destruct H as [_ H]. apply Forall_app in H. destruct H as [H _]. apply Forall_app. auto.
Qed.
Definition plain_stmt (st : stmt) : Prop :=
  Forall plain_token (type_stmt st) /\ match st with SExpression e => Forall plain_token (type_expr e) | _ => True end.
Lemma type_plain : (forall st, plain_stmt st) /\ (forall e, Forall plain_token (type_expr e)) /\
  (forall c, Forall plain_token (type_stmt (SClass c))) /\ (forall f, Forall plain_token (type_fun f)).
Proof.
  assert (PT : forall k, existsb (tt_eqb k) [Eof; Number; TString] = false -> plain_token (punct k))
    by (intros; now apply plain_tok).
  assert (FP : forall ps, Forall plain_token (type_params ps)) by exact plain_params.
  assert (CM : forall es, Forall (fun e => Forall plain_token (type_expr e)) es ->
    Forall plain_token (commas (map type_expr es))).
  { intros es F. apply commas_forall; [now apply PT|]. now apply Forall_map. }
  assert (FB : forall b, Forall plain_stmt b -> Forall plain_token (flat_map type_stmt b)).
  { intros b F. apply flat_forall. eapply Forall_impl; [|exact F]. now intros st []. }
  Ltac plain := repeat first
    [ apply Forall_nil | apply Forall_cons | (apply Forall_app; split) | assumption
    | apply plain_string | apply plain_number | (apply plain_tok; reflexivity) | (apply flat_forall; assumption) ].
  Ltac unplain := repeat match goal with
      | H : Forall _ (_ ++ _) |- _ => apply Forall_app in H; destruct H
      | H : Forall _ (_ :: _) |- _ => apply Forall_cons_iff in H; destruct H
      end.
  apply tree_ind; intros; cbn [type_expr type_fun].
  { (* a block *)
    split; [|exact I]. assert (D : Forall plain_token (punct LeftBrace :: flat_map type_stmt b ++ [punct RightBrace])).
    { plain. auto. }
    destruct b as [|[] [|[] [|y b]]]; try exact D; cbn [type_stmt]; cbn [type_stmt] in D; (destruct (loose _) eqn:L; [|exact D]);
      inversion H as [|? ? [_ H1] H2]; subst; inversion H2 as [|? ? [H3 _] _]; subst; cbn [type_stmt] in H3;
      clear D H H2; unplain; plain. }
  all: try (split; [|first [exact I | exact H]]).
  all: cbn [type_stmt]; unfold plain_stmt in *; repeat match goal with H : _ /\ _ |- _ => destruct H end; plain; auto.
  - destruct (brace_first e); plain. destruct (empty_first e); cbn [negb]; [|apply type_open_tokens; [now apply PT|assumption]].
    destruct e; cbn [type_expr] in *; plain; unplain; plain.
  - destruct e as [e|]; cbn [Popt] in *; plain. tauto.
  - apply plain_tok. destruct op; reflexivity.
  - destruct b; now apply plain_tok.
  - apply commas_forall; [now apply PT|]. apply Forall_map. eapply Forall_impl; [|exact H].
    intros [k e] X. cbn in X. plain.
  - apply plain_tok. destruct op; reflexivity.
  - apply plain_tok. destruct (String.eqb x "this"); reflexivity.
  - apply plain_tok. destruct op; reflexivity.
  - destruct s as [[]|]; plain.
  - apply flat_forall. eapply Forall_impl; [|exact H0]. intros [m [ps body k l']] X. cbn [Pn] in X.
    revert X. generalize (type_fun (FunDef ps body k l')). intros q X. destruct k; plain.
Qed.
Lemma type_ok : forall l, tokens_ok (type_program l).
Proof.
  intros l. unfold type_program.
  assert (F : Forall plain_token (flat_map type_stmt l)).
  { apply flat_forall, Forall_forall. intros st _. apply type_plain. }
  split.
  - exists (flat_map type_stmt l), (punct Eof). split; auto. split; auto.
    eapply Forall_impl; [|exact F]. now intros t [].
  - apply Forall_app. split; [|constructor; auto; discriminate]. eapply Forall_impl; [|exact F].
    intros t (_ & H & _). exact H.
  - apply Forall_app. split; [|constructor; auto; discriminate]. eapply Forall_impl; [|exact F].
    intros t (_ & _ & H). exact H.
Qed.
Lemma type_parse : forall l trailing oc, well_formed l -> settled l ->
  parse_tokens (type_program l) trailing oc = Done (Ok l).
Proof.
  intros l trailing oc W S. apply parse_tokens_exact; [apply type_ok|].
  exists (punct Eof). split; auto. now apply type_derives.
Qed.

Lemma chars_blanks d : chars (blanks d) = text_of (repeat Space d).
Proof. induction d as [|d IH]; [reflexivity|]. cbn [blanks repeat]. change (chars (String " " (blanks d))) with (" " :: chars (blanks d)). now rewrite IH. Qed.

Lemma leaf_impl (n n' t t' : string -> Prop) (k k' : f64 -> Prop) p :
  (forall x, n x -> n' x) -> (forall x, t x -> t' x) -> (forall x, k x -> k' x) -> leaf n t k p -> leaf n' t' k' p.
Proof.
  intros A B C. destruct p as [st|e|[x s ms l]|[ps b f l]]; cbn [leaf writable].
  - destruct st as [| | | | |[]| | | | | |]; cbn [writable]; auto.
  - destruct e; auto. { apply Forall_impl; auto. } intuition.
  - intros (X & Y & Z). split; auto. split; [destruct s as [[]|]; auto|]. eapply Forall_impl; [|exact Z]. intros []; auto.
  - apply Forall_impl; auto.
Qed.

Section Ascii.
Variable U : unicode.
Hypothesis KA : knows_ascii U.
(** ** From flows to texts *)
Definition at_start (s : mode) : bool := match s with Mid => false | _ => true end.
Section Eof.
Variable eof : token.
Hypothesis K1 : t_type eof = Eof.
Hypothesis K2 : t_string eof = None.
Hypothesis K3 : t_float eof = None.
Lemma flows_types (Q : token -> Prop) s d ts s' : (forall t, Q t -> exists e, word_elem U t e) ->
  s' <> Due -> TypeTree.flows Q s d ts s' 0 -> exists es, types U s d (ts ++ [eof]) es.
Proof.
  intros H ND F. remember 0 as z eqn:Z.
  induction F as [s d|d t ts s' d' K KS KF F IH|s d t ts s' d' q A NI F IH
    |s d t ts s' d' N K KS KF F IH|d t ts s' d' K KS KF F IH]; cbn [app]; try (destruct (IH ND Z) as (es & T)).
  - subst. exists nil. now apply TEnd.
  - exists (Newline :: es). now apply TNewline.
  - destruct (H _ q) as (e & E). exists (margin s d ++ e :: gap_after (ts ++ [eof]) ++ es). apply TWord; auto.
    intros I. apply NI. cbn in *. tauto.
  - destruct s; [|exists es; now apply TIndent|congruence]. exists (detour d ++ es). now apply TDetour.
  - exists es. now apply TOutdent.
Qed.
Lemma spelled_types s d ts s' : s' <> Due -> TypeTree.flows (spelled U) s d ts s' 0 ->
  exists es, types U s d (ts ++ [eof]) es /\ text_of es = chars (write_deep d (at_start s) (ts ++ [eof])).
Proof.
  intros ND F. remember 0 as z eqn:Z.
  induction F as [s d|d t ts s' d' K KS KF F IH|s d t ts s' d' q A NI F IH
    |s d t ts s' d' N K KS KF F IH|d t ts s' d' K KS KF F IH]; cbn [app]; try (destruct (IH ND Z) as (es & T & X)).
  - subst. exists nil. split; [now apply TEnd|]. cbn [write_deep]. now rewrite K1.
  - exists (Newline :: es). split; [now apply TNewline|]. cbn [write_deep]. rewrite K, chars_app. cbn [at_start] in X.
    rewrite <- X. reflexivity.
  - eexists (margin s d ++ _ :: gap_after (ts ++ [eof]) ++ es). split.
    { apply TWord; [exact q| |exact A|exact T]. intros I. apply NI. cbn in *. tauto. }
    assert (E : write_deep d (at_start s) (t :: ts ++ [eof])
      = String.append (if at_start s then blanks d else "") (String.append (spell t)
          (String.append (if abutting (ts ++ [eof]) then "" else " ") (write_deep d false (ts ++ [eof]))))).
    { cbn [write_deep]. cbn in NI. destruct (t_type t); try reflexivity; exfalso; tauto. }
    rewrite E, !chars_app, text_of_app. f_equal.
    { destruct s; cbn [margin at_start]; auto using chars_blanks. }
    cbn [text_of flat_map elem_text]. f_equal.
    fold (text_of (gap_after (ts ++ [eof]) ++ es)). rewrite text_of_app, X. f_equal.
    unfold gap_after. destruct (abutting _); reflexivity.
  - destruct s; [| |congruence]; cbn [at_start] in *.
    + exists (detour d ++ es). split; [now apply TDetour|]. cbn [write_deep]. rewrite K, !chars_app, text_of_app, <- X.
      unfold detour. cbn [text_of flat_map elem_text app]. f_equal. fold (text_of (repeat Space d ++ [Comment ["/"; "/"]; Newline])).
      rewrite text_of_app, chars_blanks. reflexivity.
    + exists es. split; [now apply TIndent|]. cbn [write_deep]. rewrite K, chars_app. exact X.
  - exists es. split; [now apply TOutdent|]. cbn [write_deep]. rewrite K. exact X.
Qed.
End Eof.

Lemma typed_parses trailing oc l es : well_formed l -> settled l -> indentable l -> types U Fresh 0 (type_program l) es ->
  exists l', parse_with U (fun toks => parse_tokens toks trailing oc) (text_of es) = Done (Ok l') /\
    map unplaced l = map unplaced l'.
Proof.
  intros WF SE IN W. destruct (type_scan U (knows_space U KA) (knows_paren U KA) (knows_sane U KA) _ _ W IN) as (toks & E & WD).
  assert (OK : tokens_ok toks) by exact (source_ok U (knows_sane U KA) _ (types_valid U _ _ _ _ W) toks E).
  destruct (parse_words trailing oc _ _ _ (type_ok l) OK WD (type_parse l trailing oc WF SE)) as (l' & P & X).
  exists l'. split; auto. unfold parse_with. rewrite E. exact P.
Qed.

Theorem full_text_parses trailing oc l : well_formed l -> settled l -> ascii_leaves l -> indentable l ->
  exists l', parse_with U (fun toks => parse_tokens toks trailing oc) (chars (full_text l)) = Done (Ok l') /\
    map unplaced l' = map unplaced l.
Proof.
  intros WF SE A IN.
  destruct (TypeTree.program_flows (spelled U) _ _ _ (spelled_sign U KA) (spelled_this U KA) (spelled_name U KA) (spelled_text U)
    (spelled_number U) l A SE Fresh 0) as (s' & ND & F). { discriminate. }
  destruct (spelled_types (punct Eof) eq_refl eq_refl eq_refl Fresh 0 _ s' ND F) as (es & W & T).
  destruct (typed_parses trailing oc l es WF SE IN W) as (l' & P & X).
  exists l'. split; auto. unfold full_text, type_program. cbn [at_start] in T. now rewrite <- T.
Qed.

Theorem some_text oc l : well_formed l -> settled l -> text_leaves U l -> indentable l ->
  exists gs l', valid_source gs /\ parse U oc gs = Done (Ok l') /\ map unplaced l' = map unplaced l.
Proof.
  intros WF SE A IN.
  destruct (TypeTree.program_flows (fun t => exists e, word_elem U t e)
     (fun x => exists text, word_for U Identifier None None text /\ sconcat text = x)
     (fun s => exists text, word_for U TString (Some s) None text)
     (fun x => exists text, word_for U Number None (Some x) text)) with (l := l) (s := Fresh) (d := 0)
    as (s' & ND & F); auto.
  - intros k l0 s H. eapply spelled_word. now apply (spelled_sign U KA).
  - intros l0. eapply spelled_word, (spelled_this U KA).
  - intros x l0 (text & (L1 & L2) & L3). eexists. exists text. split; [reflexivity|]. auto.
  - intros s (text & L1 & L2). eexists. exists text. split; [reflexivity|]. repeat split; auto. cbn. intuition discriminate.
  - intros s (text & L1 & L2). eexists. exists text. split; [reflexivity|]. repeat split; auto. cbn. intuition discriminate.
  - discriminate.
  - destruct (flows_types (punct Eof) eq_refl eq_refl eq_refl _ Fresh 0 _ s' (fun t H => H) ND F) as (es & W).
    destruct (typed_parses false oc l es WF SE IN W) as (l' & P & X).
    exists (text_of es), l'. split; [eapply types_valid; eauto|]. split; auto.
Qed.

(** ** Necessity *)
Theorem text_tree oc gs l : valid_source gs -> parse U oc gs = Done (Ok l) -> well_formed l /\ settled l /\ text_leaves U l.
Proof.
  intros V H. assert (A : accepted U oc gs l) by now left.
  pose proof (accepted_well_formed U (knows_sane U KA) oc gs V l A) as WF.
  destruct (locations U (knows_sane U KA) oc gs V (program_parts l)) as (toks & E & L). { left. eauto. }
  split; [exact WF|]. split; [exact (text_settled U oc gs l toks (knows_sane U KA) V E H)|].
  destruct WF as [WF _]. unfold text_leaves. rewrite Forall_forall in *. intros p I.
  specialize (L p I). destruct (WF p I) as ((_ & _ & _ & AN) & _).
  assert (X : no_empty_first p -> writable (cluster_name U) (cluster_text U) (cluster_number U) p)
    by (apply (located_writable U KA gs V toks E); auto).
  assert (Y : leaf (cluster_name U) (cluster_text U) (cluster_number U) p).
  { destruct p as [[]| | |]; cbn [leaf]; auto; now apply X. }
  revert Y. apply leaf_impl; unfold cluster_name, cluster_text, cluster_number, word_for.
  - intros x (text & P & Q & R). eauto.
  - intros x (text & P & Q). eauto.
  - intros x (text & P & Q). eauto.
Qed.
Theorem text_exact oc l : indentable l ->
  (exists gs l', valid_source gs /\ parse U oc gs = Done (Ok l') /\ map unplaced l' = map unplaced l) <->
  well_formed l /\ settled l /\ text_leaves U l.
Proof.
  intros IN. split.
  - intros (gs & l' & V & P & E). destruct (text_tree oc gs l' V P) as (A & B & C). unfold text_leaves in *.
    rewrite <- well_formed_unplaced, <- settled_unplaced, <- leaves_unplaced, <- E.
    now rewrite well_formed_unplaced, settled_unplaced, leaves_unplaced.
  - intros (A & B & C). now apply some_text.
Qed.
Theorem text_needs oc gs l l' : valid_source gs -> parse U oc gs = Done (Ok l') -> map unplaced l' = map unplaced l ->
  well_formed l /\ settled l /\ text_leaves U l.
Proof.
  intros V P E. destruct (text_tree oc gs l' V P) as (A & B & C). unfold text_leaves in *.
  rewrite <- well_formed_unplaced, <- settled_unplaced, <- leaves_unplaced, <- E.
  now rewrite well_formed_unplaced, settled_unplaced, leaves_unplaced.
Qed.
End Ascii.

(** The writer never gives one text to two programs. *)
Theorem full_text_injective l l' : well_formed l -> settled l -> ascii_leaves l -> indentable l ->
  well_formed l' -> settled l' -> ascii_leaves l' -> indentable l' ->
  full_text l = full_text l' -> map unplaced l = map unplaced l'.
Proof.
  intros W S A I W' S' A' I' E.
  destruct (full_text_parses _ sample_knows_ascii false false l W S A I) as (t & P & X).
  destruct (full_text_parses _ sample_knows_ascii false false l' W' S' A' I') as (t' & P' & X'). rewrite E in P. congruence.
Qed.
Theorem outdent_order U gs p o t r : sane U -> valid_source gs -> scan_tokens U gs = Done (Ok (p ++ o :: t :: r)) ->
  t_type o = Outdent -> t_type t <> Terminator.
Proof. intros Sn V E K. eapply tidy_split; [|exact K]. exact (scan_tidy U gs _ Sn V E). Qed.

(** ** Deciding the conditions, for examples *)
Definition freeb (st : stmt) : bool := match st with SExpression e => negb (loose e) | _ => true end.
Lemma freeb_ok st : freeb st = true <-> free st.
Proof. destruct st; cbn; try tauto. apply negb_true_iff. Qed.
Lemma freesb_ok l : forallb freeb l = true <-> Forall free l.
Proof. rewrite forallb_forall, Forall_forall. split; intros H st I; apply freeb_ok; auto. Qed.
Definition settled_partb (p : part) : bool :=
  match p with
  | PStmt (SBlock b) => for_block b || forallb freeb b
  | PStmt (SIf _ t o) => freeb t && match o with Some e => freeb e && negb (open_end t) | None => true end
  | PStmt (SWhile _ b | SWhileIncrement _ b _) => freeb b
  | PFun (FunDef _ b _ _) => forallb freeb b
  | _ => true
  end.
Lemma settled_partb_ok p : settled_partb p = true <-> settled_part p.
Proof.
  destruct p as [st|e|c|[ps b k l]]; cbn [settled_partb settled_part]; try tauto.
  - destruct st as [b|l|c|l|e|f|c t o|e|e l|x k e l|c b|c b i]; cbn [settled_partb settled_part]; try tauto;
      rewrite ?orb_true_iff, ?andb_true_iff, ?freesb_ok, ?freeb_ok; try tauto.
    destruct o as [e|]; try tauto. rewrite andb_true_iff, freeb_ok, negb_true_iff. tauto.
  - apply freesb_ok.
Qed.
Lemma settledb l : forallb freeb l && forallb settled_partb (program_parts l) = true <-> settled l.
Proof.
  assert (X : forallb settled_partb (program_parts l) = true <-> Forall settled_part (program_parts l)).
  { rewrite forallb_forall, Forall_forall. split; intros H p I; apply settled_partb_ok; auto. }
  unfold settled. rewrite andb_true_iff, freesb_ok, X. tauto.
Qed.
Definition leafb (p : part) : bool := match p with PStmt (SExpression _) => true | _ => writableb p end.
Lemma ascii_leavesb l : forallb leafb (program_parts l) = true -> ascii_leaves l.
Proof.
  apply forallb_ok. intros p H. destruct p as [[]| | |]; cbn [leafb leaf] in *; auto; now apply writableb_ok.
Qed.
Lemma indentableb l : (N.of_nat (peak 0 (type_program l)) <=? u16_max)%N = true -> indentable l.
Proof. apply N.leb_le. Qed.
