(** The trees of texts are settled. *)
From Verif Require Import Base F64 Token Ast Scanner Parser SpecLex SpecTree SpecGrammar SpecPrint SpecPlace SpecWrite
  SpecParse SpecType ParseFirst SizeTree ScanFinal ParseProps ParseMore ParseFinal FlatExact TypeOrder.
From Coq Require Import Lia.

(** No end of line follows an Outdent. *)
Definition orderly (i : list token) : Prop :=
  forall p o t r, i = p ++ o :: t :: r -> t_type o = Outdent -> t_type t <> Terminator.
Lemma orderly_suffix i r : suffix i r -> orderly i -> orderly r.
Proof. intros [p ->] F q o t r' E. apply (F (p ++ q) o t r'). now rewrite E, app_assoc. Qed.
Definition after_outdent (i r : list token) : Prop := exists p o, i = p ++ o :: r /\ t_type o = Outdent.
Lemma after_line i r r' : orderly i -> after_outdent i r -> token_then Terminator r r' -> False.
Proof. intros F (p & o & E & K) (t & -> & K'). exact (F p o t r' E K K'). Qed.

Definition oks (l : list part) : Prop := Forall settled_part l.
Lemma oks_app l l' : oks (l ++ l') <-> oks l /\ oks l'.
Proof. apply Forall_app. Qed.
Lemma oks_cons p l : oks (p :: l) <-> settled_part p /\ oks l.
Proof. apply Forall_cons_iff. Qed.
Lemma oks_nil : oks nil <-> True.
Proof. split; auto. constructor. Qed.

Definition before_ok (N : sym) : Prop :=
  match N with BinaryTail _ e | CallTail e => oks (expr_parts e) | _ => True end.
Definition shut (st : stmt) (r : list token) : Prop := free st /\ (starts [Else] r -> open_end st = false).
Definition head_ok (N : sym) (i : list token) (v : val) (r : list token) : Prop :=
  match N, v with
  | (Binary _ | Unary | Call | Primary), VE e => starts [LeftBrace] i \/ empty_first e = false \/ this_here r
  | Target, VE e => (starts [LeftBrace] i \/ empty_first e = false \/ this_here r) \/ after_outdent i r
  | Expression, VE e => (starts [LeftBrace] i \/ loose e = false \/ this_here r) \/ after_outdent i r
  | (BinaryTail _ a | CallTail a), VE e => empty_first a = false -> empty_first e = false
  | (Declaration | VarDeclaration _), VS st => free st
  | (Statement | Branch), VS st => shut st r
  | ExpressionStatement, VS st => (starts [LeftBrace] i \/ free st) /\ open_end st = false
  | (Statements _ | Block | Program), VSs l => Forall free l
  | _, _ => True
  end.
Lemma loose_not e : empty_first e = false -> loose e = false.
Proof. unfold loose. now intros ->. Qed.
Lemma loose_assigned a b l x : assigned a b l = Some x -> loose x = false.
Proof.
  destruct a; cbn [assigned]; try discriminate; intros E.
  - injection E as <-. unfold loose. now rewrite andb_false_r.
  - injection E as <-. unfold loose. now rewrite andb_false_r.
  - destruct (String.eqb _ _); [discriminate|]. now injection E as <-.
Qed.

Lemma operator_head n k f a l b : operator n k = Some f -> empty_first (f a l b) = empty_first a /\
  (oks (expr_parts (f a l b)) <-> oks (expr_parts a) /\ oks (expr_parts b)).
Proof.
  do 6 (destruct n as [|n]; [destruct k; intros E; try discriminate E; injection E as <-; (split; [reflexivity|]);
    cbn [expr_parts]; rewrite oks_cons, oks_app; cbn [settled_part]; tauto|]).
  discriminate.
Qed.
Lemma assigned_head a b l x : assigned a b l = Some x -> (empty_first a = false -> empty_first x = false) /\
  (oks (expr_parts a) -> oks (expr_parts b) -> oks (expr_parts x)).
Proof.
  destruct a; cbn [assigned]; try discriminate.
  - intros E. injection E as <-. split; [auto|]. cbn [expr_parts]. rewrite !oks_cons, !oks_app; cbn [settled_part]; tauto.
  - intros E. injection E as <-. split; [auto|]. cbn [expr_parts]. rewrite !oks_cons, !oks_app; cbn [settled_part]; tauto.
  - destruct (String.eqb _ _); [discriminate|]. intros E. injection E as <-. split; [auto|]. cbn [expr_parts].
    rewrite !oks_cons; cbn [settled_part]; tauto.
Qed.
Lemma with_kind_ok k f : oks (fun_parts (with_kind k f)) <-> oks (fun_parts f).
Proof. destruct f; cbn [with_kind fun_parts]; rewrite !oks_cons; cbn [settled_part]; tauto. Qed.
Lemma for_ok o c inc st :
  oks (match o with Some d => parts d | None => nil end) -> oks (expr_parts c) ->
  oks (match inc with Some e => expr_parts e | None => nil end) -> oks (parts st) -> free st ->
  oks (parts (for_tree o c inc st)).
Proof.
  assert (X : forall d q, match q with SWhile _ _ | SWhileIncrement _ _ _ => True | _ => False end ->
    for_block [d; q] = true \/ Forall free [d; q]).
  { intros d q H. assert (FQ : free q) by now destruct q. destruct d; try (right; repeat constructor; auto; fail).
    destruct (loose e) eqn:L; [left; destruct q; try contradiction; exact L|right; repeat constructor; auto]. }
  destruct o as [d|], inc as [e|]; cbn [for_tree parts flat_map]; rewrite ?oks_cons, ?oks_app, ?oks_cons, ?oks_app, ?oks_nil;
    cbn [settled_part]; intros; repeat split; auto; try tauto; apply X; exact I.
Qed.
Lemma for_open o c inc st : open_end st = false -> free (for_tree o c inc st) /\ open_end (for_tree o c inc st) = false.
Proof.
  intros H. destruct o as [[]|], inc; cbn; try (now split); rewrite H; rewrite ?andb_false_r; now split.
Qed.
Lemma for_free o c inc st : free (for_tree o c inc st).
Proof. destruct o, inc; exact I. Qed.
Lemma block_lines l : Forall free l -> settled_part (PStmt (SBlock l)) /\ open_end (SBlock l) = false.
Proof.
  intros F. split; [now right|]. destruct l as [|[] [|[] [|]]]; try reflexivity; inversion F as [|? ? A _]; subst; cbn in A |- *; now rewrite A.
Qed.

Section Text_.
Variable trailing : bool.
Hypothesis TF : trailing = false.

Lemma text_lines : forall b N i v r, derives trailing b N i v r -> sym_ok N -> orderly i -> before_ok N ->
  oks (vparts v) /\ head_ok N i v r.
Proof.
  induction 1; intros K F B; cbn [sym_ok before_ok] in *;
    repeat match goal with
    | H : derives trailing _ ?N ?i _ ?r |- _ =>
      lazymatch goal with _ : suffix i r |- _ => fail | _ => idtac end;
      let S := fresh "Sf" in pose proof (derives_suffix _ _ _ _ _ _ H) as S
    | H : opens ?k _ _ |- _ =>
      lazymatch goal with _ : k <> This |- _ => fail | _ => idtac end;
      pose proof (opens_ok _ _ _ H)
    end;
    repeat match goal with IH : True -> orderly _ -> _ |- _ => specialize (IH I) end;
    repeat match goal with IH : (?k <> This) -> _, K : ?k <> This |- _ => specialize (IH K) end;
    repeat match goal with IH : RightBrace <> This -> _ |- _ => specialize (IH ltac:(discriminate)) end;
    repeat match goal with
    | IH : orderly ?i -> _, F : orderly ?i |- _ => specialize (IH F)
    | IH : orderly ?j -> _, F : orderly ?i |- _ =>
      let F' := fresh "F" in assert (F' : orderly j) by (apply (orderly_suffix i j); [suf|exact F]); specialize (IH F')
    end;
    repeat match goal with IH : True -> _ /\ _ |- _ => specialize (IH I) end;
    cbn [head_ok vparts] in *.
  all: repeat match goal with H : _ /\ _ |- _ => destruct H end.
  all: cbn [parts expr_parts class_parts fun_parts flat_map entry_of named_of settled_part free open_end empty_first] in *;
    rewrite ?oks_cons, ?oks_app, ?oks_nil, ?with_kind_ok, ?app_nil_r in *;
    try tauto.
  - (* expression *)
    split; auto. match goal with X : _ \/ after_outdent _ _ |- _ => destruct X as [[X|[X|X]]|X]; auto using loose_not end.
  - (* assignment *)
    match goal with X : assigned _ _ _ = Some _ |- _ => destruct (assigned_head _ _ _ _ X) as [A1 A2]; apply loose_assigned in X end.
    split; auto.
  - (* indented *)
    split; auto. right. match goal with X : token_then Outdent _ _ |- _ => destruct X as (o & -> & E) end.
    match goal with X : token_then Indent _ _ |- _ => destruct X as (o' & -> & _) end.
    assert (T : suffix i1 (o :: r)) by suf. destruct T as [q ->]. exists (o' :: q), o. now split.
  - (* binary *)
    destruct IHderives2 as [O T]; auto. split; auto. destruct H3 as [X|[X|X]]; auto. right; right.
    now apply (stuck _ _ _ _ _ _ H1 I).
  - (* operator *)
    destruct (operator_head _ _ _ e (tloc t) e2 H) as [A1 A2]. destruct IHderives2 as [O T]; [tauto|]. split; auto.
    rewrite A1 in T. auto.
  - (* call *)
    destruct IHderives2 as [O T]; auto. split; auto. destruct H2 as [X|[X|X]]; auto. right; right.
    now apply (stuck _ _ _ _ _ _ H0 I).
  - (* bare map *)
    split; [split; [exact I|assumption]|]. apply entries_nonempty in H0; auto. destruct m; cbn in H0; [lia|auto].
  - (* this map *)
    split; [split; [exact I|exact I]|]. right; right. exists t, c, i. auto.
  - (* braces *)
    split; [split; [exact I|assumption]|]. left. destruct H as (t & -> & E). cbn. auto.
  - split; auto.
  - split; auto.
  - repeat split; auto. repeat constructor.
  - unfold shut in *. tauto.
  - unfold shut. tauto.
  - (* an expression and the end of the line *)
    split; [split; [exact I|assumption]|]. split; auto.
    match goal with X : _ \/ after_outdent _ _ |- _ => destruct X as [[X|[X|X]]|X] end; auto; exfalso.
    + impossible.
    + eapply after_line; eauto.
  - congruence.
  - repeat split; auto.
  - repeat split; auto.
  - repeat split; auto.
  - repeat split; auto.
  - repeat split; auto.
  - match goal with X : Forall free _ |- _ => destruct (block_lines _ X) as [X1 X2] end. unfold shut. repeat (apply conj; auto).
  - match goal with X : Forall free _ |- _ => destruct (block_lines _ X) as [X1 X2] end. unfold shut. repeat (apply conj; auto).
  - unfold shut in *. cbn [settled_part open_end free]. tauto.
  - unfold shut in *. cbn [settled_part open_end free].
    match goal with X : token_then Else ?i _ |- _ => assert (starts [Else] i) by (apply (starts_then _ _ _ _ X); cbn; auto) end. tauto.
  - unfold shut in *. cbn [settled_part open_end free]. tauto.
  - unfold shut in *. match goal with X : free st /\ _ |- _ => destruct X as [X1 X2] end. split; [now apply for_ok|].
    split; [apply for_free|]. intros E. now apply for_open, X2.
  - split; auto.
  - split; auto.
Qed.
End Text_.


Theorem text_settled U oc gs l toks : sane U -> valid_source gs -> scan_tokens U gs = Done (Ok toks) ->
  parse U oc gs = Done (Ok l) -> settled l.
Proof.
  intros Sn V E H. apply (parse_exact U Sn oc gs V toks l E) in H as (eof & _ & D).
  assert (F : orderly toks).
  { intros p o t r -> K. eapply tidy_split; [|exact K]. now apply (scan_tidy U gs _ Sn V E). }
  destruct (text_lines _ eq_refl _ _ _ _ _ D I F I) as [A B]. now split.
Qed.
