(** In the tokens of a text the end of a line never follows an Outdent. *)
From Verif Require Import Base F64 Token Ast Scanner SpecLex SpecLayout SpecScan ScanLex ScanLayout ScanUnique ScanProps ScanSpaces ScanFinal.

(** [ok]: an end of line may come next. *)
Fixpoint tidy (ok : bool) (l : list token) : Prop :=
  match l with
  | nil => True
  | t :: r => (t_type t = Terminator -> ok = true) /\ tidy (negb (tt_eqb (t_type t) Outdent)) r
  end.
Lemma tidy_any ok l : tidy false l -> tidy ok l.
Proof. destruct l; cbn; auto. intros [A B]. split; auto. intros E. now apply A in E. Qed.
Lemma tidy_opening op ok r : Forall (fun t => t_type t = Indent \/ t_type t = Outdent) op -> tidy false r -> tidy ok (op ++ r).
Proof.
  intros F T. revert ok. induction F as [|t op K F IH]; intros ok; cbn; [now apply tidy_any|].
  split; [intros E; destruct K; congruence|apply IH].
Qed.
Lemma tidy_words w r : Forall (fun t => t_type t <> Terminator /\ t_type t <> Outdent) w -> tidy (match w with nil => false | _ => true end) r ->
  tidy false (w ++ r).
Proof.
  intros F T. destruct w as [|t w]; [exact T|]. cbn. inversion F as [|? ? [A B] F']; subst. split; [contradiction|].
  assert (E : forall t, t_type t <> Outdent -> negb (tt_eqb (t_type t) Outdent) = true).
  { intros x X. unfold tt_eqb. destruct token_type_eq_dec; [contradiction|reflexivity]. }
  rewrite E by assumption. clear A B F t. induction F' as [|t w [A B] F' IH]; cbn; [exact T|].
  split; [contradiction|]. rewrite E; auto.
Qed.

Definition inner (p : placed) : Prop :=
  match snd p with
  | Newline | Continuation _ => False
  | Tok k _ _ _ => ~ In k [Terminator; Outdent; Indent; LeftParenAbutting]
  | _ => True
  end.
Definition word_kinds (p : placed) : Prop :=
  match snd p with Tok k _ _ _ => ~ In k [Terminator; Outdent; Indent; LeftParenAbutting] | _ => True end.
Lemma split_inner es : forall acc, Forall inner acc -> Forall word_kinds es -> Forall (fun l => Forall inner (body l)) (split_lines acc es).
Proof.
  induction es as [|[b e] es IH]; intros acc A F; cbn [split_lines].
  - constructor; auto.
  - inversion F as [|? ? K F']; subst.
    assert (X : inner (b, e) -> Forall (fun l => Forall inner (body l)) (split_lines (acc ++ [(b, e)]) es)).
    { intros H. apply IH; auto. apply Forall_app. split; auto. }
    destruct e; try (apply X; exact I); try (constructor; [exact A|apply IH; auto]). apply X. exact K.
Qed.
Lemma inner_tokens prev l : Forall inner l -> Forall (fun t => t_type t <> Terminator /\ t_type t <> Outdent) (elems_tokens prev l).
Proof.
  intros F. revert prev. induction F as [|[b e] l K F IH]; intros prev; cbn; [constructor|]. apply Forall_app. split; auto.
  destruct e as [kind tx st nm| | | | | | | | |]; cbn; auto. constructor; [|constructor]. cbn [t_type mk_at]. cbn in K.
  assert (X : kind <> Terminator /\ kind <> Outdent) by (split; intros ->; apply K; auto).
  destruct kind; auto. destruct (abuts prev); split; discriminate.
Qed.
Lemma blank_tokens l : forall prev, content l = nil -> elems_tokens prev l = nil.
Proof.
  induction l as [|[b e] l IH]; intros prev C; [reflexivity|]. cbn in C. destruct e; cbn in C; try discriminate C; cbn; auto.
Qed.
Lemma content_errors l : elems_errors (content l) = nil -> forall b e r, content l = (b, e) :: r -> elem_errors (b, e) = nil.
Proof. intros E b e r C. rewrite C in E. unfold elems_errors in E. cbn in E. now apply app_eq_nil in E. Qed.
Lemma content_in l x r : content l = x :: r -> In x l.
Proof.
  induction l as [|[b e] l IH]; cbn; [discriminate|]. destruct (is_blank e); [right; auto|]. intros [= <- _]. now left.
Qed.
Lemma content_word l b k tx st nm r : forall prev, content l = (b, Tok k tx st nm) :: r -> elems_tokens prev l <> nil.
Proof.
  induction l as [|[b' e] l IH]; intros prev C; [discriminate|]. cbn in C. destruct (is_blank e) eqn:B.
  - cbn. intros E. apply app_eq_nil in E. destruct E as [_ E]. now apply (IH _ C) in E.
  - injection C as -> -> ->. cbn. discriminate.
Qed.
Lemma opening_kinds stack j w p op mm st : open_line stack j w p = Some (op, mm, st) ->
  Forall (fun t => t_type t = Indent \/ t_type t = Outdent) op.
Proof.
  destruct p as [b e]. unfold open_line.
  assert (R : forall t n, t_type t = Outdent -> Forall (fun t => t_type t = Indent \/ t_type t = Outdent) (repeat t n)).
  { intros t n K. apply Forall_forall. intros x I. apply repeat_spec in I. subst. auto. }
  destruct (w =? hd 0 stack)%N; [intros [= <- _ _]; constructor|]. destruct (hd 0 stack <? w)%N.
  - destruct j; intros [= <- _ _]; [constructor|]. repeat constructor.
  - destruct (filter _ stack) as [|n q].
    + intros [= <- _ _]. now apply R.
    + destruct (n =? w)%N; intros [= <- _ _]. now apply R.
Qed.
Lemma line_tidy prev l r : Forall inner (body l) -> elems_errors (content (body l)) = nil -> tidy false r ->
  tidy false (elems_tokens prev (body l) ++ terminator l ++ r).
Proof.
  intros F E T. apply tidy_words; [now apply inner_tokens|].
  unfold terminator. destruct (ending l); try now apply tidy_any.
  destruct (content (body l)) as [|[b e] q] eqn:C; [now apply tidy_any|].
  destruct (continuing (body l) || is_comment_line ((b, e) :: q)) eqn:J; [now apply tidy_any|].
  assert (X : elems_tokens prev (body l) <> nil).
  { assert (I := content_in _ _ _ C). rewrite Forall_forall in F. specialize (F _ I).
    assert (NB : is_blank e = false).
    { clear - C. induction (body l) as [|[b' e'] l' IH]; [discriminate|]. cbn in C. destruct (is_blank e') eqn:B; auto.
      now injection C as -> -> _. }
    unfold elems_errors in E. cbn [flat_map] in E. apply app_eq_nil in E. destruct E as [E _].
    destruct e; try discriminate NB; try discriminate E; try (exfalso; exact F).
    - eapply content_word; eauto.
    - cbn in J. now rewrite orb_true_r in J. }
  destruct (elems_tokens prev (body l)); [congruence|]. cbn. split; auto using tidy_any.
Qed.
Lemma layout_tidy ls : forall stack j prev toks st, layout stack j prev ls = Some (toks, nil, st) ->
  Forall (fun l => Forall inner (body l)) ls -> forall r, tidy false r -> tidy false (toks ++ r).
Proof.
  induction ls as [|l ls IH]; intros stack j prev toks st L F r T; cbn [layout] in L.
  - injection L as <- _. exact T.
  - inversion F as [|? ? F1 F2]; subst.
    destruct (match content (body l) with nil => Some (nil, nil, stack) | first :: _ => open_line stack j (indentation (body l)) first end)
      as [[[op mm] stack']|] eqn:O; [|discriminate].
    destruct (layout stack' _ _ ls) as [[[toks' errs] fin]|] eqn:L'; [|discriminate].
    injection L as <- E _. apply app_eq_nil in E. destruct E as [_ E]. apply app_eq_nil in E. destruct E as [_ E].
    apply app_eq_nil in E. destruct E as [E ->].
    rewrite <- !app_assoc. apply tidy_opening.
    + destruct (content (body l)); [injection O as <- _ _; constructor|]. eapply opening_kinds; eauto.
    + apply line_tidy; auto. eapply IH; eauto.
Qed.
Lemma lexes_kinds U gs es : lexes U gs es -> forall b, Forall word_kinds (place b es).
Proof.
  induction 1 as [|e rest es L X IH]; intros b; cbn [place]; constructor; auto.
  destruct e; try exact I. unfold word_kinds. cbn [snd]. apply lexeme_kind in L. destruct L as [L L'].
  intros N. cbn in N. repeat (destruct N as [<-|N]; [first [discriminate L|now apply L']|]). contradiction.
Qed.
Theorem scan_tidy U gs toks : sane U -> valid_source gs -> scan_tokens U gs = Done (Ok toks) -> tidy false toks.
Proof.
  intros Sn V E. destruct (lexing_unique U gs) as (es & L & _).
  rewrite (scan_correct U Sn _ _ V L) in E. unfold scan_spec in E.
  destruct (layout nil false None (split_lines nil (place nil es))) as [[[ts errs] st]|] eqn:LY; [|discriminate].
  destruct errs as [|c errs]; [|discriminate]. injection E as <-.
  eapply layout_tidy; [exact LY| |].
  - apply split_inner; [constructor|]. eapply lexes_kinds; eauto.
  - unfold closing. apply tidy_opening.
    + apply Forall_forall. intros t I. apply repeat_spec in I. subst t. now right.
    + cbn. split; [discriminate|exact I].
Qed.
Lemma tidy_split p : forall ok o t r, tidy ok (p ++ o :: t :: r) -> t_type o = Outdent -> t_type t <> Terminator.
Proof.
  induction p as [|x p IH]; intros ok o t r T K; cbn in T.
  - destruct T as (_ & T & _). rewrite K in T. cbn in T. intros E. now apply T in E.
  - destruct T as [_ T]. eauto.
Qed.
