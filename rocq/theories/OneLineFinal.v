(** What can be typed on one line. *)
From Verif Require Import Base F64 Token Ast Scanner Parser SpecLex SpecLayout SpecScan SpecTree SpecGrammar SpecParse SpecPlace SpecOneLine
  ScanLex ScanStep ScanLayout ScanUnique ScanProps ScanErrors ScanPairs ParseFirst ParseProps ParseFinal AstInd FlatExact OneLine.

(** ** Lines of tokens *)
Lemma dead_no i : Forall (fun t => In (t_type t) [Outdent; Eof]) i -> ~ live i.
Proof. intros F (t & I & H). rewrite Forall_forall in F. now apply H, F. Qed.
Lemma single_dead i : Forall (fun t => In (t_type t) [Outdent; Eof]) i -> single i.
Proof.
  intros F x t y ->. apply Forall_app in F. destruct F as [_ F]. inversion F; subst.
  split; [intros _; now apply dead_no|]. intros E. rewrite E in H1. now destruct H1 as [|[|[]]].
Qed.
Lemma single_cons t i : single i -> flat i -> t_type t <> Eof -> (t_type t = Terminator -> ~ live i) -> single (t :: i).
Proof.
  intros S F N E [|t' x] u y Q.
  - injection Q as <- <-. split; auto. intros [A|[A|[]]]; [now apply E|congruence].
  - injection Q as -> ->. destruct (S x u y eq_refl) as [A _]. split; auto. intros X. exfalso.
    apply Forall_app in F. destruct F as [_ F]. inversion F; subst. contradiction.
Qed.
Lemma text_single ts i : Forall (fun t => from_text t = true) ts -> single i -> flat i -> single (ts ++ i) /\ flat (ts ++ i).
Proof.
  intros F S Fl. induction F as [|t ts H F [IH1 IH2]]; [auto|]. unfold from_text, is_layout in H. cbn [app]. split.
  - apply single_cons; auto; intros E; rewrite E in H; discriminate.
  - constructor; auto. intros E; rewrite E in H; discriminate.
Qed.
Lemma line_single op ts tm d : op = nil \/ (exists t, op = [t] /\ t_type t = Indent) ->
  Forall (fun t => from_text t = true) ts -> tm = nil \/ (exists t, tm = [t] /\ t_type t = Terminator) ->
  Forall (fun t => In (t_type t) [Outdent; Eof]) d -> single (op ++ ts ++ tm ++ d).
Proof.
  intros O T M D.
  assert (Fd : flat d). { eapply Forall_impl; [|exact D]. intros t [E|[E|[]]]; rewrite <- E; discriminate. }
  assert (X : single (tm ++ d) /\ flat (tm ++ d)).
  { destruct M as [->|(t & -> & E)]; cbn [app]; [split; auto; now apply single_dead|]. split.
    - apply single_cons; auto; [now apply single_dead|congruence|]. intros _. now apply dead_no.
    - constructor; auto. congruence. }
  destruct X as [X1 X2]. destruct (text_single ts _ T X1 X2) as [Y1 Y2].
  destruct O as [->|(t & -> & E)]; cbn [app]; auto. apply single_cons; auto; congruence.
Qed.

(** ** Lines of elements *)
Lemma split_single ps : forall acc, Forall (fun p => is_line_end (snd p) = false) (removelast ps) ->
  exists bd, split_lines acc ps = [mkLine bd ByEof] \/ exists e, split_lines acc ps = [mkLine bd e; mkLine nil ByEof].
Proof.
  induction ps as [|[b e] ps IH]; intros acc F; [cbn; eauto|].
  destruct ps as [|p ps].
  - cbn. destruct e; eauto.
  - change (removelast ((b, e) :: p :: ps)) with ((b, e) :: removelast (p :: ps)) in F. inversion F; subst.
    cbn [snd] in H1. destruct e; try discriminate H1; cbn [split_lines]; apply IH; auto.
Qed.
Lemma removelast_place es : forall b, map snd (removelast (place b es)) = removelast es.
Proof.
  induction es as [|e es IH]; intros b; [reflexivity|]. cbn [place].
  destruct es as [|e' es]; [reflexivity|]. specialize (IH (b ++ elem_text e)). cbn [place] in *.
  change (e :: map snd (removelast ((b ++ elem_text e, e') :: place ((b ++ elem_text e) ++ elem_text e') es)) =
    e :: removelast (e' :: es)). now rewrite IH.
Qed.
Lemma line_end_text U e rest : lexeme U e rest -> is_line_end e = true -> In s_nl (elem_text e).
Proof.
  destruct e; try discriminate; intros L _.
  - now left.
  - inversion L; subst. cbn [elem_text]. right. do 2 (apply in_or_app; right). now left.
Qed.
Lemma single_elements U es : forall gs, lexes U gs es -> single_line gs -> Forall (fun e => is_line_end e = false) (removelast es).
Proof.
  unfold single_line. induction es as [|e es IH]; intros gs L S; [constructor|].
  inversion L as [|? rest ? L1 L2]; subst. destruct es as [|e' es]; [constructor|].
  change (removelast (e :: e' :: es)) with (e :: removelast (e' :: es)).
  assert (rest <> nil).
  { inversion L2; subst. intros Q. apply app_eq_nil in Q. destruct Q as [Q _]. revert Q. eapply lexeme_text_nonempty; eauto. }
  rewrite removelast_app in S by auto. constructor.
  - destruct (is_line_end e) eqn:E; auto. exfalso. apply S. apply in_or_app. left. eapply line_end_text; eauto.
  - apply (IH rest); auto. intros Q. apply S. apply in_or_app. now right.
Qed.
Section Sources.
Variables (U : unicode) (Sn : sane U).
Theorem scan_single gs toks : valid_source gs -> single_line gs -> scan_tokens U gs = Done (Ok toks) -> single toks.
Proof.
  intros V SL S. destruct (lexes_total U gs) as [es L].
  rewrite (scan_correct U Sn gs es V L) in S. unfold scan_spec in S.
  destruct (layout nil false None (split_lines nil (place nil es))) as [[[ts errs] st]|] eqn:LY; [|discriminate].
  destruct errs as [|]; [|discriminate]. injection S as <-.
  assert (D : Forall (fun t => In (t_type t) [Outdent; Eof]) (closing (length st) gs)).
  { unfold closing. apply Forall_app. split; [|constructor; [right; now left|constructor]].
    apply Forall_forall. intros t I. apply repeat_spec in I. subst t. now left. }
  assert (K := lexes_text_kinds U gs es L nil).
  assert (TK : forall l, In l (split_lines nil (place nil es)) -> text_kinds (body l)).
  { intros l I. apply Forall_forall. intros x Ix. unfold text_kinds in K. rewrite Forall_forall in K. apply K.
    exact (split_bodies (place nil es) nil (Forall_nil _) l I x Ix). }
  assert (SE := single_elements U es gs L SL).
  assert (SP : Forall (fun p => is_line_end (snd p) = false) (removelast (place nil es))).
  { rewrite <- (removelast_place es nil) in SE. apply Forall_map in SE. exact SE. }
  destruct (split_single _ nil SP) as (bd & Q).
  assert (Q' : exists e r, split_lines nil (place nil es) = mkLine bd e :: r /\ (r = nil \/ r = [mkLine nil ByEof])).
  { destruct Q as [->|(e & ->)]; eauto. }
  destruct Q' as (e & r & Q' & R). rewrite Q' in *.
  apply layout_cons in LY. destruct LY as (op & mi & st' & ts' & errs' & A & B & C & E). subst ts. cbn [body] in *.
  assert (ts' = nil). { destruct R as [->| ->]; cbn in B; congruence. } subst ts'. rewrite app_nil_r, <- !app_assoc.
  apply line_single; auto.
  - destruct (content bd) as [|[b0 e0] c]; [injection A as <- _ _; auto|]. unfold open_line in A. cbn [hd filter] in A.
    destruct (_ =? _)%N; [injection A as <- _ _; auto|]. destruct (_ <? _)%N; [|].
    + injection A as <- _ _. right. eexists. split; reflexivity.
    + injection A as <- _ _. now left.
  - apply elems_tokens_text. apply (TK (mkLine bd e)). now left.
  - unfold terminator. cbn [ending body]. destruct e; auto. destruct (content bd); auto.
    destruct (_ || _); auto. right. eexists. split; reflexivity.
Qed.

Theorem typed_line oc gs l : valid_source gs -> single_line gs -> accepted U oc gs l ->
  sayable l /\
  forall toks, scan_tokens U gs = Done (Ok toks) -> Exists (fun t => t_type t = Terminator) toks ->
  exists l' st, l = l' ++ [st] /\ line_ended st = true.
Proof.
  intros V SL A.
  assert (X : exists toks trailing eof, scan_tokens U gs = Done (Ok toks) /\ derives trailing false Program toks (VSs l) [eof]).
  { destruct (scan_tokens U gs) as [[toks|]| | |] eqn:S;
      try (exfalso; destruct A as [A|A]; unfold parse, parse_repl_line, parse_with in A; rewrite S in A; discriminate).
    destruct A as [A|A].
    - destruct (proj1 (parse_exact U Sn oc gs V toks l S) A) as (eof & _ & D). eauto 6.
    - destruct (proj1 (parse_repl_exact U Sn oc gs V toks l S) A) as (eof & _ & D). eauto 6. }
  destruct X as (toks & trailing & eof & S & D).
  destruct (one_line _ _ _ _ _ _ D (scan_single gs toks V SL S) I) as [X Y]. split; auto.
  intros toks' S' H. rewrite S in S'. injection S' as <-. apply Y. apply Exists_exists in H. exact H.
Qed.
End Sources.

(** ** Functions *)
Definition fi (L : list part) : Prop := forall f, In (PFun f) L -> idles (fun_parts f).
Lemma fi_app l l' : fi l -> fi l' -> fi (l ++ l').
Proof. intros A B f I. apply in_app_or in I. destruct I; auto. Qed.
Lemma fi_nil : fi nil.
Proof. intros f []. Qed.
Lemma fi_cons p l : match p with PFun f => idles (fun_parts f) | _ => True end -> fi l -> fi (p :: l).
Proof. intros A B f [->|I]; auto. Qed.
Lemma fi_flat {A} (g : A -> list part) l : Forall (fun a => idles (g a) -> fi (g a)) l -> idles (flat_map g l) -> fi (flat_map g l).
Proof.
  induction 1; cbn; intros H1; [apply fi_nil|]. apply idles_app in H1. destruct H1. apply fi_app; auto.
Qed.
Lemma idle_functions :
  (forall st, idles (parts st) -> fi (parts st)) /\ (forall e, idles (expr_parts e) -> fi (expr_parts e)) /\
  (forall c, idles (class_parts c) -> fi (class_parts c)) /\ (forall f, idles (fun_parts f) -> fi (fun_parts f)).
Proof.
  apply tree_ind; intros; cbn [parts expr_parts class_parts fun_parts] in *;
    repeat match goal with
    | H : idles (_ :: _) |- _ => let H' := fresh in pose proof H as H'; apply idles_cons in H'; destruct H' as [_ H']; revert H
    end; intros;
    repeat match goal with H : idles (_ ++ _) |- _ => apply idles_app in H; destruct H end;
    apply fi_cons; try exact I; try assumption;
    repeat apply fi_app; auto using fi_nil;
    try (apply fi_flat; auto; fail).
  - destruct e; cbn in *; auto using fi_nil.
  - apply fi_flat; auto. eapply Forall_impl; [|exact H]. intros [k a]; auto.
  - destruct s; cbn in *; auto using fi_nil.
  - apply fi_flat; auto. eapply Forall_impl; [|exact H0]. intros [k a]; auto.
Qed.
Lemma last_functions : forall st, line_last st -> fi (parts st).
Proof.
  destruct idle_functions as (Is & Ie & _ & _).
  fix IH 1. intros [b|?|c|?|e|[x f]|c a [o|]|e|e ?|x s e l|c b|c b i]; cbn [line_last]; intros H;
    try (apply Is; exact H);
    try (cbn [parts]; apply fi_cons; [exact I|]; repeat apply fi_app; auto using fi_nil; (apply Ie || apply Is || apply IH || idtac); tauto).
  - assert (D : idles (parts (SBlock b)) -> fi (parts (SBlock b))) by apply Is.
    destruct b as [|d [|w [|]]]; try (apply D; exact H); destruct d; try (apply D; exact H).
    2:{ destruct w; apply D; exact H. }
    assert (Hw := IH w). cbn [parts flat_map].
    assert (X : (idles (expr_parts e) /\ line_last w) \/ idles (parts (SBlock [SVar x s e l; w]))) by (destruct w; auto).
    destruct X as [[X1 X2]|X]; [|apply D; exact X].
    apply fi_cons; [exact I|]. rewrite app_nil_r. apply (fi_cons (PStmt (SVar x s e l))); [exact I|].
    apply fi_app; auto.
  - assert (Ho := IH o). cbn [parts]. apply fi_cons; [exact I|]. destruct H as (A & B & C). auto using fi_app.
  - assert (Ho := IH a). cbn [parts]. apply fi_cons; [exact I|]. destruct H as (A & B). auto using fi_app, fi_nil.
  - assert (Ho := IH b). cbn [parts]. apply fi_cons; [exact I|]. destruct H as (A & B). auto using fi_app.
  - assert (Ho := IH b). cbn [parts]. apply fi_cons; [exact I|]. destruct H as (A & B & C). auto using fi_app.
Qed.
Theorem sayable_functions l : sayable l -> fi (program_parts l).
Proof.
  destruct idle_functions as (Is & _).
  assert (P : forall l, idles (program_parts l) -> fi (program_parts l)).
  { intros l0. apply fi_flat. apply Forall_forall. auto. }
  intros [[H _]|(l' & st & -> & H & _ & L)]; auto.
  unfold program_parts. rewrite flat_map_app. cbn [flat_map]. rewrite app_nil_r. apply fi_app; [now apply P|].
  now apply last_functions.
Qed.
(** Statements that are ended by the end of their line. *)
Theorem sayable_bodies l f st : sayable l -> In (PFun f) (program_parts l) -> In (PStmt st) (fun_parts f) ->
  match st with SExpression _ | SPrint _ | SReturn _ _ | SBreak _ | SContinue _ => False | _ => True end.
Proof.
  intros S F I. assert (H := sayable_functions l S f F). unfold idles in H. rewrite Forall_forall in H. apply H in I.
  destruct st; auto.
Qed.
