(** Consequences of [scan_correct]. *)
From Verif Require Import Base F64 Token Scanner SpecLex SpecLayout SpecScan
  StrFacts ScanLex ScanStep ScanCluster ScanLayout ScanUnique.

Lemma snoc_app {A} (l : list A) x r : l ++ x :: r = (l ++ [x]) ++ r.
Proof. rewrite <- app_assoc. reflexivity. Qed.

(** ** Divergence *)
Lemma filter_le_nil w stack :
  filter (fun n => n <=? w)%N stack = nil <-> forall n, In n stack -> (w < n)%N.
Proof.
  split.
  - intros E n H. destruct (N.leb_spec n w) as [L|L]; [|assumption]. exfalso.
    assert (X : In n (filter (fun n => n <=? w)%N stack)).
    { apply filter_In. split; [assumption|]. now apply N.leb_le. }
    rewrite E in X. contradiction.
  - intros H. induction stack as [|x r IH]; [reflexivity|]. cbn.
    destruct (N.leb_spec x w) as [L|L].
    + specialize (H x (or_introl eq_refl)). lia.
    + apply IH. intros n Hn. apply H. now right.
Qed.

Lemma open_line_some stack joined w p a b st :
  open_line stack joined w p = Some (a, b, st) -> st = new_levels stack joined w.
Proof.
  unfold open_line, new_levels. destruct p as [bf e].
  destruct (w =? hd 0%N stack)%N; [congruence|].
  destruct (hd 0%N stack <? w)%N; [destruct joined; congruence|].
  destruct (filter _ stack) as [|n r]; [congruence|].
  destruct (n =? w)%N; congruence.
Qed.

Lemma levels_hd_max stack n : levels stack -> In n stack -> (n <= hd 0%N stack)%N.
Proof.
  intros [S _] H. destruct S as [|x r S F]; [contradiction|]. cbn.
  destruct H as [->|H]; [lia|]. rewrite Forall_forall in F. specialize (F n H). lia.
Qed.

Lemma open_line_none stack joined w p :
  levels stack ->
  open_line stack joined w p = None <->
  (w < hd 0%N stack)%N /\ ~ In w stack /\ exists n, In n stack /\ (n < w)%N.
Proof.
  intros Lv. unfold open_line. destruct p as [bf e].
  destruct (N.eqb_spec w (hd 0%N stack)) as [->|NE].
  { split; [discriminate|]. intros [H _]. lia. }
  destruct (N.ltb_spec (hd 0%N stack) w) as [LT|GE].
  { split; [destruct joined; discriminate|]. intros [H _]. lia. }
  pose proof (levels_filter (fun n => n <=? w)%N stack Lv) as LF.
  destruct (filter (fun n => n <=? w)%N stack) as [|n r] eqn:E.
  - split; [discriminate|]. intros (_ & _ & n & I & L).
    pose proof (proj1 (filter_le_nil w stack) E n I). lia.
  - assert (In n stack /\ (n <= w)%N) as [In1 Le].
    { assert (X : In n (filter (fun n => n <=? w)%N stack)) by (rewrite E; now left).
      apply filter_In in X. destruct X as [X Y]. apply N.leb_le in Y. auto. }
    destruct (N.eqb_spec n w) as [->|NW].
    + split; [discriminate|]. tauto.
    + split; [intros _|reflexivity]. split; [lia|]. split.
      * intros I. assert (X : In w (filter (fun n => n <=? w)%N stack)).
        { apply filter_In. split; [assumption|]. apply N.leb_le. lia. }
        rewrite E in X.
        pose proof (levels_hd_max _ _ LF X) as M. cbn in M. lia.
      * exists n. split; [assumption|lia].
Qed.

Lemma new_levels_levels stack joined w : levels stack -> levels (new_levels stack joined w).
Proof.
  intros Lv. unfold new_levels.
  destruct (w =? hd 0%N stack)%N; [assumption|].
  destruct (N.ltb_spec (hd 0%N stack) w).
  - destruct joined; [assumption|]. now apply levels_push.
  - now apply levels_filter.
Qed.

Lemma walk_levels ls : forall stack joined,
  levels stack -> levels (fst (walk stack joined ls)).
Proof.
  induction ls as [|l r IH]; intros stack joined Lv; cbn; [assumption|].
  apply IH. destruct (content (body l)); [assumption|]. now apply new_levels_levels.
Qed.

Definition line_between (stack : list N) (l : line) : Prop :=
  let w := indentation (body l) in
  ~ is_blank_line l /\ (w < hd 0%N stack)%N /\
  ~ In w stack /\ exists n, In n stack /\ (n < w)%N.

Lemma layout_none ls : forall stack joined prev, levels stack ->
  layout stack joined prev ls = None <->
  exists pre l post, ls = pre ++ l :: post /\
                     line_between (fst (walk stack joined pre)) l.
Proof.
  induction ls as [|l r IH]; intros stack joined prev Lv.
  - cbn. split; [discriminate|]. intros (pre & l & post & E & _).
    destruct pre; discriminate.
  - cbn [layout]. unfold line_between, is_blank_line.
    destruct (content (body l)) as [|first c] eqn:Ec.
    + destruct (IH stack (joins_next joined l) (last_elem l) Lv) as [IH1 IH2].
      destruct (layout stack (joins_next joined l) (last_elem l) r)
        as [[[a b] d]|].
      * split; [discriminate|]. intros (pre & l0 & post & E & H).
        destruct pre as [|l1 pre]; injection E as -> ->.
        { destruct H as [H _]. congruence. }
        cbn [walk] in H. rewrite Ec in H. exfalso.
        enough (X : Some (a, b, d) = None) by discriminate. apply IH2.
        exists pre, l0, post. split; [reflexivity|exact H].
      * split; [intros _|reflexivity].
        destruct (IH1 eq_refl) as (pre & l0 & post & -> & H).
        exists (l :: pre), l0, post. split; [reflexivity|]. cbn [walk].
        rewrite Ec. exact H.
    + destruct (open_line stack joined (indentation (body l)) first)
        as [[[op mi] st]|] eqn:EO.
      * pose proof (open_line_some _ _ _ _ _ _ _ EO) as ->.
        pose proof (new_levels_levels stack joined (indentation (body l)) Lv) as Lv'.
        destruct (IH _ (joins_next joined l) (last_elem l) Lv') as [IH1 IH2].
        destruct (layout _ (joins_next joined l) (last_elem l) r)
          as [[[a b] d]|].
        -- split; [discriminate|]. intros (pre & l0 & post & E & H).
           destruct pre as [|l1 pre]; injection E as -> ->.
           { destruct H as [_ H]. cbn [walk fst] in H.
             apply (open_line_none _ joined _ first Lv) in H. congruence. }
           cbn [walk] in H. rewrite Ec in H. exfalso.
           enough (X : Some (a, b, d) = None) by discriminate. apply IH2.
           exists pre, l0, post. split; [reflexivity|exact H].
        -- split; [intros _|reflexivity].
           destruct (IH1 eq_refl) as (pre & l0 & post & -> & H).
           exists (l :: pre), l0, post. split; [reflexivity|]. cbn [walk].
           rewrite Ec. exact H.
      * split; [intros _|reflexivity].
        exists nil, l, r. split; [reflexivity|]. cbn [walk fst].
        split; [congruence|]. now apply (open_line_none _ joined _ first Lv).
Qed.

(** ** Results of the layout *)
Lemma layout_final ls : forall stack joined prev toks errs final,
  layout stack joined prev ls = Some (toks, errs, final) ->
  final = fst (walk stack joined ls).
Proof.
  induction ls as [|l r IH]; intros stack joined prev toks errs final H.
  - cbn in H. now injection H as <- <- <-.
  - cbn [layout walk] in *. destruct (content (body l)) as [|first c].
    + destruct (layout stack _ _ r) as [[[a b] d]|] eqn:E; [|discriminate].
      injection H as <- <- <-. eapply IH. exact E.
    + destruct (open_line _ _ _ _) as [[[op mi] st]|] eqn:EO; [|discriminate].
      pose proof (open_line_some _ _ _ _ _ _ _ EO) as ->.
      destruct (layout _ _ _ r) as [[[a b] d]|] eqn:E; [|discriminate].
      injection H as <- <- <-. eapply IH. exact E.
Qed.

(** Kinds of the layout tokens of a line. *)
Lemma open_line_kinds stack joined w p a b st :
  open_line stack joined w p = Some (a, b, st) ->
  (a = nil /\ length st = length stack) \/
  (exists t, a = [t] /\ t_type t = Indent /\ length st = S (length stack)) \/
  (exists n t, a = repeat t n /\ t_type t = Outdent /\
               length stack = n + length st).
Proof.
  unfold open_line. destruct p as [bf e].
  destruct (w =? hd 0%N stack)%N; [intros [= <- <- <-]; auto|].
  destruct (hd 0%N stack <? w)%N.
  { destruct joined; intros [= <- <- <-]; [auto|].
    right. left. eexists. split; [reflexivity|]. auto. }
  assert (FL : length stack = length (filter (fun n => w <? n)%N stack)
                              + length (filter (fun n => n <=? w)%N stack)).
  { clear. induction stack as [|n r IH]; cbn; [reflexivity|].
    destruct (N.ltb_spec w n), (N.leb_spec n w); cbn; lia. }
  destruct (filter (fun n => n <=? w)%N stack) as [|n r].
  - intros [= <- <- <-]. right. right. do 2 eexists. split; [reflexivity|]. auto.
  - destruct (n =? w)%N; [|discriminate]. intros [= <- <- <-].
    right. right. do 2 eexists. split; [reflexivity|]. auto.
Qed.

Lemma open_line_layout stack joined w p a b st :
  open_line stack joined w p = Some (a, b, st) ->
  Forall (fun t => t_type t = Indent \/ t_type t = Outdent) a.
Proof.
  intros H. apply open_line_kinds in H.
  destruct H as [[-> _]|[(t & -> & H & _)|(n & t & -> & H & _)]].
  - constructor.
  - constructor; [auto|constructor].
  - apply Forall_forall. intros x Hx. apply repeat_spec in Hx. subst. auto.
Qed.

Lemma terminator_kinds l : Forall (fun t => t_type t = Terminator) (terminator l).
Proof.
  unfold terminator. destruct (ending l); try constructor.
  destruct (content (body l)); [constructor|].
  destruct (_ || _); repeat constructor.
Qed.

(** Elements of a text have text kinds. *)
Lemma lexeme_kind U k text str num rest :
  lexeme U (Tok k text str num) rest -> is_layout k = false /\ k <> LeftParenAbutting.
Proof.
  intros L. remember (Tok k text str num) as e eqn:E.
  destruct L; try discriminate E; injection E as <- <- <- <-;
    try (split; [reflexivity|discriminate]).
  - cbn in H. repeat (destruct H as [H|H];
      [injection H as <- <-; split; [reflexivity|discriminate]|]). contradiction.
  - cbn in H. repeat (destruct H as [H|H];
      [injection H as <- <- <-; split; [reflexivity|discriminate]|]). contradiction.
  - cbn in H. repeat (destruct H as [H|H];
      [injection H as <- <- <-; split; [reflexivity|discriminate]|]). contradiction.
  - destruct H4 as [w k H4|w H4]; [|split; [reflexivity|discriminate]].
    cbn in H4. repeat (destruct H4 as [H4|H4];
      [injection H4 as <- <-; split; [reflexivity|discriminate]|]). contradiction.
Qed.

Definition text_kinds (ps : list placed) : Prop :=
  Forall (fun p => match snd p with Tok k _ _ _ => is_layout k = false | _ => True end) ps.

Lemma lexes_text_kinds U gs es : lexes U gs es -> forall b, text_kinds (place b es).
Proof.
  induction 1 as [|e rest es L1 L2 IH]; intros b; cbn; [constructor|].
  constructor; [|apply IH]. cbn. destruct e; try exact I.
  eapply lexeme_kind. exact L1.
Qed.

Lemma elem_tokens_text prev p :
  match snd p with Tok k _ _ _ => is_layout k = false | _ => True end ->
  Forall (fun t => from_text t = true) (elem_tokens prev p).
Proof.
  destruct p as [b e]. destruct e; cbn; try constructor; [|constructor].
  unfold from_text. cbn. destruct k; try discriminate; try reflexivity.
  destruct (abuts prev); reflexivity.
Qed.
Lemma elems_tokens_text ps : forall prev, text_kinds ps ->
  Forall (fun t => from_text t = true) (elems_tokens prev ps).
Proof.
  induction ps as [|p ps IH]; intros prev K; cbn; [constructor|].
  inversion K; subst. apply Forall_app. split; [now apply elem_tokens_text|auto].
Qed.

Lemma filter_all {A} (f : A -> bool) l : Forall (fun x => f x = true) l -> filter f l = l.
Proof. induction 1 as [|x l H F IH]; cbn; [reflexivity|]. rewrite H. congruence. Qed.
Lemma filter_none {A} (f : A -> bool) l : Forall (fun x => f x = false) l -> filter f l = nil.
Proof. induction 1 as [|x l H F IH]; cbn; [reflexivity|]. now rewrite H. Qed.

(** One line of the layout, unfolded. *)
Lemma layout_cons stack joined prev l r toks errs final :
  layout stack joined prev (l :: r) = Some (toks, errs, final) ->
  exists op mi st toks' errs',
    match content (body l) with
    | nil => Some (nil, nil, stack)
    | first :: _ => open_line stack joined (indentation (body l)) first
    end = Some (op, mi, st) /\
    layout st (joins_next joined l) (last_elem l) r = Some (toks', errs', final) /\
    toks = op ++ elems_tokens prev (body l) ++ terminator l ++ toks' /\
    errs = elems_errors (leading (body l)) ++ mi
             ++ elems_errors (content (body l)) ++ errs'.
Proof.
  cbn [layout].
  destruct (match content (body l) with nil => _ | _ => _ end)
    as [[[op mi] st]|]; [|discriminate].
  destruct (layout st _ _ r) as [[[t e] f]|] eqn:E; [|discriminate].
  intros [= <- <- <-]. exists op, mi, st, t, e. auto.
Qed.

Lemma opening_layout l stack joined op mi st :
  match content (body l) with
  | nil => Some (nil, nil, stack)
  | first :: _ => open_line stack joined (indentation (body l)) first
  end = Some (op, mi, st) ->
  Forall (fun t => t_type t = Indent \/ t_type t = Outdent) op.
Proof.
  destruct (content (body l)).
  - intros [= <- <- <-]. constructor.
  - apply open_line_layout.
Qed.

(** The tokens of the text, in order. *)
Lemma elems_tokens_end prev b e r :
  is_line_end e = true ->
  elems_tokens prev ((b, e) :: r) = elems_tokens (Some e) r.
Proof. destruct e; try discriminate; reflexivity. Qed.

Lemma layout_text ps : forall stack joined prev acc toks errs final,
  text_kinds (acc ++ ps) ->
  layout stack joined prev (split_lines acc ps) = Some (toks, errs, final) ->
  filter from_text toks = elems_tokens prev (acc ++ ps).
Proof.
  induction ps as [|[b e] ps IH]; intros stack joined prev acc toks errs final K H.
  - cbn [split_lines] in H. apply layout_cons in H.
    destruct H as (op & mi & st & t' & e' & EO & EL & -> & _). cbn in EL.
    injection EL as <- <- <-. cbn [body].
    rewrite !filter_app. apply opening_layout in EO.
    rewrite (filter_none _ op).
    2:{ eapply Forall_impl; [|exact EO]. unfold from_text.
        intros t [->| ->]; reflexivity. }
    cbn. rewrite !app_nil_r in *. apply filter_all. now apply elems_tokens_text.
  - destruct (is_line_end e) eqn:LE.
    + assert (exists en, split_lines acc (@cons placed (b, e) ps)
                = mkLine acc en :: split_lines nil ps /\
                last_elem (mkLine acc en) = Some e) as (en & SL & La).
      { destruct e; try discriminate; eexists; split; reflexivity. }
      rewrite SL in H. apply layout_cons in H.
      destruct H as (op & mi & st & t' & e' & EO & EL & -> & _).
      rewrite La in EL. cbn [body].
      rewrite elems_tokens_app, elems_tokens_end by assumption.
      rewrite !filter_app. apply opening_layout in EO.
      rewrite (filter_none _ op).
      2:{ eapply Forall_impl; [|exact EO]. unfold from_text.
          intros t [->| ->]; reflexivity. }
      rewrite (filter_none _ (terminator _)).
      2:{ eapply Forall_impl; [|apply terminator_kinds]. unfold from_text.
          intros t ->; reflexivity. }
      apply Forall_app in K. destruct K as [K1 K2]. inversion K2; subst.
      cbn [app]. rewrite filter_all by now apply elems_tokens_text.
      f_equal. eapply (IH _ _ _ nil); [|exact EL]. assumption.
    + assert (SL : split_lines acc (@cons placed (b, e) ps)
                   = split_lines (acc ++ [(b, e)]) ps)
        by (destruct e; try discriminate LE; reflexivity).
      rewrite SL in H.
      rewrite (@snoc_app placed acc (b, e) ps) in *.
      eapply IH; eassumption.
Qed.

(** Terminators, in order. *)
Lemma is_term_spec t : tt_eqb (t_type t) Terminator = true <-> t_type t = Terminator.
Proof. unfold tt_eqb. destruct (token_type_eq_dec _ _); split; congruence. Qed.

Lemma split_bodies ps : forall acc,
  Forall (fun p => is_line_end (snd p) = false) acc ->
  forall l, In l (split_lines acc ps) -> forall p, In p (body l) -> In p (acc ++ ps).
Proof.
  induction ps as [|[b e] ps IH]; intros acc A l Hl p Hp.
  - destruct Hl as [<-|[]]. cbn in Hp. apply in_or_app. now left.
  - destruct (is_line_end e) eqn:LE.
    + assert (exists en, split_lines acc (@cons placed (b, e) ps)
                = mkLine acc en :: split_lines nil ps) as (en & SL).
      { destruct e; try discriminate; eexists; reflexivity. }
      rewrite SL in Hl. destruct Hl as [<-|Hl].
      * cbn in Hp. apply in_or_app. now left.
      * apply in_or_app. right. right.
        exact (IH nil (Forall_nil _) l Hl p Hp).
    + assert (SL : split_lines acc (@cons placed (b, e) ps)
                   = split_lines (acc ++ [(b, e)]) ps)
        by (destruct e; try discriminate LE; reflexivity).
      rewrite SL in Hl.
      assert (X : In p ((acc ++ [(b, e)]) ++ ps)).
      { eapply IH; try eassumption. apply Forall_app. split; [assumption|].
        constructor; [assumption|constructor]. }
      rewrite <- app_assoc in X. exact X.
Qed.

Lemma layout_terminators ls : forall stack joined prev toks errs final,
  (forall l, In l ls -> text_kinds (body l)) ->
  layout stack joined prev ls = Some (toks, errs, final) ->
  filter (fun t => tt_eqb (t_type t) Terminator) toks = flat_map terminator ls.
Proof.
  induction ls as [|l r IH]; intros stack joined prev toks errs final K H.
  - cbn in H. now injection H as <- <- <-.
  - apply layout_cons in H.
    destruct H as (op & mi & st & t' & e' & EO & EL & -> & _).
    rewrite !filter_app. apply opening_layout in EO.
    rewrite (filter_none _ op).
    2:{ eapply Forall_impl; [|exact EO]. intros t [->| ->]; reflexivity. }
    rewrite (filter_none _ (elems_tokens _ _)).
    2:{ eapply Forall_impl; [|apply (elems_tokens_text (body l) prev);
          apply K; now left].
        unfold from_text. intros t. destruct (t_type t); try discriminate; reflexivity. }
    rewrite (filter_all _ (terminator l)).
    2:{ eapply Forall_impl; [|apply terminator_kinds]. cbn. intros t ->. reflexivity. }
    cbn [app flat_map]. f_equal. eapply IH; [|exact EL].
    intros l0 H0. apply K. now right.
Qed.

(** No Eof before the end. *)
Lemma layout_no_eof ls : forall stack joined prev toks errs final,
  (forall l, In l ls -> text_kinds (body l)) ->
  layout stack joined prev ls = Some (toks, errs, final) ->
  Forall (fun t => t_type t <> Eof) toks.
Proof.
  induction ls as [|l r IH]; intros stack joined prev toks errs final K H.
  - cbn in H. injection H as <- <- <-. constructor.
  - apply layout_cons in H.
    destruct H as (op & mi & st & t' & e' & EO & EL & -> & _).
    apply opening_layout in EO. rewrite !Forall_app. split; [|split; [|split]].
    + eapply Forall_impl; [|exact EO]. intros t [->| ->]; discriminate.
    + eapply Forall_impl; [|apply (elems_tokens_text (body l) prev); apply K; now left].
      unfold from_text. intros t H E. rewrite E in H. discriminate.
    + eapply Forall_impl; [|apply terminator_kinds]. intros t ->. discriminate.
    + eapply IH; [|exact EL]. intros l0 H0. apply K. now right.
Qed.

(** Depth. *)
Fixpoint depth_run (d : nat) (ts : list token) : option nat :=
  match ts with
  | nil => Some d
  | t :: r => match t_type t with
              | Indent => depth_run (S d) r
              | Outdent => match d with O => None | S d' => depth_run d' r end
              | _ => depth_run d r
              end
  end.
Lemma depth_run_app d a b :
  depth_run d (a ++ b) = match depth_run d a with
                         | None => None | Some d' => depth_run d' b end.
Proof.
  revert d. induction a as [|t a IH]; intros d; cbn; [reflexivity|].
  destruct (t_type t); auto. destruct d; auto.
Qed.
Lemma depth_run_flat d a :
  Forall (fun t => t_type t <> Indent /\ t_type t <> Outdent) a -> depth_run d a = Some d.
Proof.
  induction 1 as [|t a [H1 H2] F IH]; cbn; [reflexivity|].
  destruct (t_type t); congruence.
Qed.
Lemma depth_run_outdents n t d :
  t_type t = Outdent -> depth_run (n + d) (repeat t n) = Some d.
Proof. intros H. induction n; cbn; [reflexivity|]. now rewrite H. Qed.

Lemma layout_depth ls : forall stack joined prev toks errs final,
  (forall l, In l ls -> text_kinds (body l)) ->
  layout stack joined prev ls = Some (toks, errs, final) ->
  depth_run (length stack) toks = Some (length final).
Proof.
  induction ls as [|l r IH]; intros stack joined prev toks errs final K H.
  - cbn in H. now injection H as <- <- <-.
  - apply layout_cons in H.
    destruct H as (op & mi & st & t' & e' & EO & EL & -> & _).
    assert (D : depth_run (length stack) op = Some (length st)).
    { destruct (content (body l)) as [|first c].
      - now injection EO as <- <- <-.
      - apply open_line_kinds in EO.
        destruct EO as [[-> E]|[(t & -> & H & E)|(n & t & -> & H & E)]].
        + cbn. congruence.
        + cbn. rewrite H. congruence.
        + rewrite E. now apply depth_run_outdents. }
    rewrite depth_run_app, D, depth_run_app, (depth_run_flat _ (elems_tokens _ _)).
    2:{ eapply Forall_impl; [|apply (elems_tokens_text (body l) prev); apply K; now left].
        unfold from_text. intros t H. split; intros E; rewrite E in H; discriminate. }
    rewrite depth_run_app, depth_run_flat.
    2:{ eapply Forall_impl; [|apply terminator_kinds].
        cbn beta. intros t H. split; congruence. }
    eapply IH; [|exact EL]. intros l0 H0. apply K. now right.
Qed.

Lemma count_app k a b : count_kind k (a ++ b) = count_kind k a + count_kind k b.
Proof. unfold count_kind. now rewrite filter_app, app_length. Qed.
Lemma tt_eqb_refl k : tt_eqb k k = true.
Proof. unfold tt_eqb. destruct (token_type_eq_dec k k); congruence. Qed.
Lemma tt_eqb_neq a b : a <> b -> tt_eqb a b = false.
Proof. unfold tt_eqb. destruct (token_type_eq_dec a b); congruence. Qed.
Lemma count_cons k t r :
  count_kind k (t :: r) = (if tt_eqb (t_type t) k then 1 else 0) + count_kind k r.
Proof. unfold count_kind. cbn [filter]. destruct (tt_eqb _ _); reflexivity. Qed.
Lemma depth_run_cons d t r :
  depth_run d (t :: r) =
  if tt_eqb (t_type t) Indent then depth_run (S d) r
  else if tt_eqb (t_type t) Outdent
       then match d with O => None | S d' => depth_run d' r end
       else depth_run d r.
Proof. cbn [depth_run]. destruct (t_type t); reflexivity. Qed.
Lemma depth_run_count ts : forall d d',
  depth_run d ts = Some d' -> d + count_kind Indent ts = d' + count_kind Outdent ts.
Proof.
  induction ts as [|t r IH]; intros d d' H.
  - injection H as ->. reflexivity.
  - rewrite depth_run_cons in H. rewrite !count_cons.
    destruct (tt_eqb (t_type t) Indent) eqn:E1.
    + replace (tt_eqb (t_type t) Outdent) with false.
      2:{ symmetry. apply tt_eqb_neq. intros E. rewrite E in E1. discriminate. }
      specialize (IH _ _ H). lia.
    + destruct (tt_eqb (t_type t) Outdent).
      * destruct d; [discriminate|]. specialize (IH _ _ H). lia.
      * specialize (IH _ _ H). lia.
Qed.

(** ** Layout as a concatenation over lines *)
Lemma walk_app a : forall s j b,
  walk s j (a ++ b) = let '(s', j') := walk s j a in walk s' j' b.
Proof.
  induction a as [|l a IH]; intros s j b; cbn; [reflexivity|]. apply IH.
Qed.
Lemma walk_snoc pre l :
  walk nil false (pre ++ [l]) =
  (match content (body l) with
   | nil => open_levels pre
   | _ => new_levels (open_levels pre) (is_joined pre) (indentation (body l))
   end, joins_next (is_joined pre) l).
Proof.
  rewrite walk_app. unfold open_levels, is_joined.
  destruct (walk nil false pre) as [s j]. reflexivity.
Qed.
Lemma open_levels_levels pre : levels (open_levels pre).
Proof. apply walk_levels, levels_nil. Qed.

Lemma filter_gt_nil w stack :
  (forall n, In n stack -> (n <= w)%N) -> filter (fun n => w <? n)%N stack = nil.
Proof.
  intros H. apply filter_none. apply Forall_forall. intros n Hn.
  specialize (H n Hn). now apply N.ltb_ge.
Qed.

Lemma open_line_parts pre w first op mi st l :
  w = indentation (body l) -> (exists c, content (body l) = first :: c) ->
  open_line (open_levels pre) (is_joined pre) w first = Some (op, mi, st) ->
  op = opening pre l /\ mi = mismatch pre l.
Proof.
  intros -> (c & Ec). set (w := indentation (body l)).
  unfold open_line, opening, mismatch. rewrite Ec. fold w.
  destruct first as [before e].
  pose proof (open_levels_levels pre) as Lv.
  assert (Hd : forall n, In n (open_levels pre) -> (n <= hd 0%N (open_levels pre))%N)
    by (intros; now apply levels_hd_max).
  set (st0 := open_levels pre) in *.
  destruct (N.eqb_spec w (hd 0%N st0)) as [E|NE].
  - intros [= <- <- <-].
    destruct (N.ltb_spec (hd 0%N st0) w); [lia|].
    rewrite filter_gt_nil by (intros n Hn; specialize (Hd n Hn); lia).
    split; [reflexivity|]. destruct st0 as [|n0 r0]; [reflexivity|].
    cbn [forallb]. cbn in E. replace (w <? n0)%N with false
      by (symmetry; apply N.ltb_ge; lia).
    now rewrite andb_false_r.
  - destruct (N.ltb_spec (hd 0%N st0) w) as [LT|GE].
    + assert (M : match st0 with
        | nil => nil
        | _ :: _ => if (0 <? w)%N && forallb (fun n : N => (w <? n)%N) st0
          then [cause_new (next_column (position before))
                 "Outdent does not match any previous indentation level"]
          else nil end = @nil cause).
      { destruct st0 as [|n0 r0]; [reflexivity|]. cbn in LT. cbn [forallb].
        replace (w <? n0)%N with false by (symmetry; apply N.ltb_ge; lia).
        now rewrite andb_false_r. }
      rewrite M. destruct (is_joined pre); intros [= <- <- <-]; auto.
    + destruct (filter (fun n => n <=? w)%N st0) as [|n r] eqn:F.
      * intros [= <- <- <-]. split; [reflexivity|].
        pose proof (proj1 (filter_le_nil w st0) F) as A.
        assert (FB : forallb (fun n => w <? n)%N st0 = true).
        { apply forallb_forall. intros n Hn. apply N.ltb_lt. now apply A. }
        rewrite FB, andb_true_r. destruct st0 as [|n0 r0]; [cbn in NE, GE; lia|].
        destruct (N.eqb_spec w 0), (N.ltb_spec 0 w); try lia; reflexivity.
      * destruct (N.eqb_spec n w); [subst n|discriminate]. intros [= <- <- <-].
        split; [reflexivity|].
        assert (In w st0).
        { assert (X : In w (filter (fun n => n <=? w)%N st0)) by (rewrite F; now left).
          apply filter_In in X. apply X. }
        assert (FB : forallb (fun n => w <? n)%N st0 = false).
        { apply not_true_is_false. intros X.
          rewrite forallb_forall in X. specialize (X w H). cbn in X.
          apply N.ltb_lt in X. lia. }
        rewrite FB, andb_false_r. destruct st0; reflexivity.
Qed.

Lemma before_next_snoc pre l : before_next (pre ++ [l]) = last_elem l.
Proof. unfold before_next. now rewrite rev_app_distr. Qed.

Lemma layout_parts ls : forall pre toks errs final,
  layout (open_levels pre) (is_joined pre) (before_next pre) ls
    = Some (toks, errs, final) ->
  toks = tokens_of pre ls /\ errs = errors_of pre ls /\ final = open_levels (pre ++ ls).
Proof.
  induction ls as [|l r IH]; intros pre toks errs final H.
  - cbn in H. injection H as <- <- <-. rewrite app_nil_r. auto.
  - apply layout_cons in H.
    destruct H as (op & mi & st & t' & e' & EO & EL & -> & ->).
    assert (X : op = opening pre l /\ mi = mismatch pre l /\
                st = open_levels (pre ++ [l])).
    { unfold open_levels at 1. rewrite walk_snoc. cbn [fst].
      destruct (content (body l)) as [|first c] eqn:Ec.
      - injection EO as <- <- <-. unfold opening, mismatch. rewrite Ec. auto.
      - pose proof (open_line_some _ _ _ _ _ _ _ EO) as ->.
        destruct (open_line_parts pre _ first op mi _ l eq_refl (ex_intro _ c Ec) EO).
        auto. }
    destruct X as (-> & -> & ->).
    assert (J : joins_next (is_joined pre) l = is_joined (pre ++ [l])).
    { unfold is_joined at 2. rewrite walk_snoc. reflexivity. }
    rewrite J, <- (before_next_snoc pre l) in EL.
    destruct (IH _ _ _ _ EL) as (-> & -> & ->).
    cbn [tokens_of errors_of]. rewrite <- app_assoc. auto.
Qed.

(** ** The result of scanning, by cases *)
Section Result.
Variable U : unicode.
Variable gs : list string.
Variable es : list elem.
Hypothesis Sn : sane U.
Hypothesis V : valid_source gs.
Hypothesis L : lexes U gs es.

Definition scanned_tokens : list token :=
  tokens_of nil (source_lines es)
  ++ closing (List.length (open_levels (source_lines es))) gs.

Lemma scan_cases :
  (some_line between_levels es /\ scan_tokens U gs = Diverged) \/
  (~ some_line between_levels es /\
   scan_tokens U gs = Done (match errors_of nil (source_lines es) with
                            | nil => Ok scanned_tokens
                            | c :: r => Err (c :: r)
                            end)).
Proof.
  rewrite (scan_correct U Sn gs es V L). unfold scan_spec.
  pose proof (layout_none (source_lines es) nil false None levels_nil) as N.
  unfold source_lines in N at 1.
  destruct (layout nil false None (split_lines nil (place nil es)))
    as [[[toks errs] st]|] eqn:E.
  - right. split.
    + intros (pre & l & post & EL & B).
      enough (X : Some (toks, errs, st) = None) by discriminate. apply N.
      exists pre, l, post. split; [exact EL|]. exact B.
    + destruct (layout_parts (source_lines es) nil toks errs st E)
        as (-> & -> & ->).
      unfold scanned_tokens. destruct (errors_of nil (source_lines es)); reflexivity.
  - left. split; [|reflexivity].
    destruct (proj1 N eq_refl) as (pre & l & post & EL & B).
    exists pre, l, post. split; [exact EL|exact B].
Qed.

Lemma scan_ok toks :
  scan_tokens U gs = Done (Ok toks) ->
  toks = scanned_tokens /\ errors_of nil (source_lines es) = nil /\
  layout nil false None (source_lines es)
    = Some (tokens_of nil (source_lines es), nil, open_levels (source_lines es)).
Proof.
  intros H. rewrite (scan_correct U Sn gs es V L) in H. unfold scan_spec in H.
  destruct (layout nil false None (split_lines nil (place nil es)))
    as [[[ts errs] st]|] eqn:E; [|discriminate].
  destruct (layout_parts (source_lines es) nil ts errs st E) as (E1 & E2 & E3).
  destruct errs; [|discriminate]. injection H as <-.
  unfold scanned_tokens. rewrite <- E1, <- E2. cbn in E3. rewrite <- E3. auto.
Qed.

Lemma bodies_text l : In l (source_lines es) -> text_kinds (body l).
Proof.
  intros H. apply Forall_forall. intros p Hp.
  pose proof (split_bodies (place nil es) nil (Forall_nil _) l H p Hp) as I.
  pose proof (lexes_text_kinds U gs es L nil) as K.
  unfold text_kinds in K. rewrite Forall_forall in K. exact (K p I).
Qed.

Lemma closing_kinds n : Forall (fun t => from_text t = false) (closing n gs).
Proof.
  unfold closing. apply Forall_app. split.
  - apply Forall_forall. intros t H. apply repeat_spec in H. now subst.
  - repeat constructor.
Qed.

Lemma ok_text_tokens toks :
  scan_tokens U gs = Done (Ok toks) ->
  filter from_text toks = elems_tokens None (place nil es).
Proof.
  intros H. destruct (scan_ok toks H) as (-> & _ & E). unfold scanned_tokens.
  rewrite filter_app, (filter_none _ (closing _ _)) by apply closing_kinds.
  rewrite app_nil_r.
  exact (layout_text (place nil es) nil false None nil _ _ _
           (lexes_text_kinds U gs es L nil) E).
Qed.

Lemma ok_terminators toks :
  scan_tokens U gs = Done (Ok toks) ->
  filter (fun t => tt_eqb (t_type t) Terminator) toks
  = flat_map terminator (source_lines es).
Proof.
  intros H. destruct (scan_ok toks H) as (-> & _ & E). unfold scanned_tokens.
  rewrite filter_app, (layout_terminators _ _ _ _ _ _ _ bodies_text E).
  rewrite filter_none, app_nil_r; [reflexivity|].
  unfold closing. apply Forall_app. split.
  - apply Forall_forall. intros t Ht. apply repeat_spec in Ht. now subst.
  - repeat constructor.
Qed.

Lemma ok_eof toks :
  scan_tokens U gs = Done (Ok toks) ->
  exists pre, toks = pre ++ [mkToken Eof "" None None (loc_line (position gs))
                               (N.min 65534 (loc_column (position gs)))] /\
              Forall (fun t => t_type t <> Eof) pre.
Proof.
  intros H. destruct (scan_ok toks H) as (-> & _ & E). unfold scanned_tokens, closing.
  rewrite app_assoc. eexists. split; [reflexivity|].
  apply Forall_app. split.
  - exact (layout_no_eof _ _ _ _ _ _ _ bodies_text E).
  - apply Forall_forall. intros t Ht. apply repeat_spec in Ht. now subst.
Qed.

Lemma ok_depth toks :
  scan_tokens U gs = Done (Ok toks) -> depth_run 0 toks = Some 0.
Proof.
  intros H. destruct (scan_ok toks H) as (-> & _ & E). unfold scanned_tokens, closing.
  pose proof (layout_depth _ _ _ _ _ _ _ bodies_text E) as D.
  cbn [length] in D. rewrite depth_run_app, D, depth_run_app.
  set (n := length (open_levels (source_lines es))).
  replace n with (n + 0) at 1 by lia.
  rewrite depth_run_outdents by reflexivity. reflexivity.
Qed.

Lemma ok_balanced toks pre post :
  scan_tokens U gs = Done (Ok toks) -> toks = pre ++ post ->
  count_kind Outdent pre <= count_kind Indent pre /\
  count_kind Outdent toks = count_kind Indent toks.
Proof.
  intros H E. pose proof (ok_depth toks H) as D. split.
  - subst toks. rewrite depth_run_app in D.
    destruct (depth_run 0 pre) as [d|] eqn:E; [|discriminate].
    apply depth_run_count in E. lia.
  - apply depth_run_count in D. lia.
Qed.

End Result.

(** ** Where tokens come from *)
Lemma place_app a : forall b c,
  place b (a ++ c) = place b a ++ place (b ++ text_of a) c.
Proof.
  induction a as [|e a IH]; intros b c; cbn.
  - now rewrite app_nil_r.
  - rewrite IH, <- app_assoc. reflexivity.
Qed.
Lemma text_of_app a b : text_of (a ++ b) = text_of a ++ text_of b.
Proof. apply flat_map_app. Qed.
Lemma lexes_text U gs es : lexes U gs es -> gs = text_of es.
Proof. induction 1 as [|e rest es L1 L2 IH]; cbn; [reflexivity|]. now rewrite IH at 1. Qed.
Lemma lexes_app_inv U a : forall gs c,
  lexes U gs (a ++ c) -> exists gs', gs = text_of a ++ gs' /\ lexes U gs' c.
Proof.
  induction a as [|e a IH]; intros gs c H; cbn in *.
  - exists gs. auto.
  - inversion H as [|? rest ? L1 L2]; subst.
    destruct (IH _ _ L2) as (gs' & -> & L3). exists gs'. split; [|assumption].
    now rewrite app_assoc.
Qed.

Lemma last_elem_of_cons prev e a : last_elem_of prev (e :: a) = last_elem_of (Some e) a.
Proof. unfold last_elem_of. cbn. destruct (rev a); reflexivity. Qed.

Lemma elems_tokens_origin es : forall b prev t,
  In t (elems_tokens prev (place b es)) ->
  exists a e c, es = a ++ e :: c /\
    In t (elem_tokens (last_elem_of prev a) (b ++ text_of a, e)).
Proof.
  induction es as [|e es IH]; intros b prev t H; cbn in H; [contradiction|].
  apply in_app_or in H. destruct H as [H|H].
  - exists nil, e, es. split; [reflexivity|]. cbn. now rewrite app_nil_r.
  - destruct (IH _ _ _ H) as (a & e' & c & -> & I).
    exists (e :: a), e', c. split; [reflexivity|].
    rewrite last_elem_of_cons. cbn. now rewrite app_assoc.
Qed.
Lemma elems_tokens_in a : forall b prev e c t,
  In t (elem_tokens (last_elem_of prev a) (b ++ text_of a, e)) ->
  In t (elems_tokens prev (place b (a ++ e :: c))).
Proof.
  induction a as [|x a IH]; intros b prev e c t H; cbn in *.
  - rewrite app_nil_r in H. apply in_or_app. now left.
  - apply in_or_app. right. apply IH. rewrite last_elem_of_cons in H.
    now rewrite <- app_assoc.
Qed.

(** Every text token is the token of an element of the source. *)
Lemma token_origin U gs es toks t :
  sane U -> valid_source gs -> lexes U gs es ->
  scan_tokens U gs = Done (Ok toks) -> In t toks -> from_text t = true ->
  exists a k text str num c rest,
    es = a ++ Tok k text str num :: c /\
    gs = text_of a ++ text ++ rest /\ lexeme U (Tok k text str num) rest /\
    t = mk_at (match k with
               | LeftParen => if abuts (last_elem_of None a)
                              then LeftParenAbutting else LeftParen
               | _ => k end) (sconcat text) str num (position (text_of a)).
Proof.
  intros Sn V L H I F.
  assert (I' : In t (filter from_text toks)) by (apply filter_In; auto).
  rewrite (ok_text_tokens U gs es Sn V L toks H) in I'.
  apply elems_tokens_origin in I'. destruct I' as (a & e & c & -> & I').
  cbn [app] in I'. destruct e; cbn in I'; try contradiction.
  destruct I' as [<-|[]].
  apply lexes_app_inv in L. destruct L as (gs' & -> & L).
  inversion L as [|? rest ? L1 L2]; subst.
  exists a, k, text, str, num, c, rest. auto.
Qed.
