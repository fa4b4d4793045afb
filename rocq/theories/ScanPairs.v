(** Lemmas on pairs of sources: blank lines, comments, line endings. *)
From Verif Require Import Base F64 Token Scanner SpecLex SpecLayout SpecScan
  StrFacts ScanLex ScanStep ScanCluster ScanLayout ScanUnique ScanProps ScanErrors.

(** ** The result depends only on the elements, up to positions *)
Definition end_shape (e : line_end) : option elem :=
  match e with
  | ByNewline _ => Some Newline
  | ByContinuation e => Some e
  | ByEof => None
  end.
(** What the layout looks at: of a comment only its first cluster. *)
Definition look (p : placed) : elem :=
  match snd p with Comment t => Comment (firstn 1 t) | e => e end.
Lemma look_inv b e b' e' : look (b, e) = look (b', e') ->
  e = e' \/ exists t t', e = Comment t /\ e' = Comment t' /\ firstn 1 t = firstn 1 t'.
Proof.
  destruct e, e'; unfold look; cbn; intros H; try discriminate; auto.
  injection H as H. right. eauto.
Qed.
Ltac looks E := apply look_inv in E; destruct E as [<-|(tt & tt' & -> & -> & E)].

Definition alike (l m : line) : Prop :=
  map look (body l) = map look (body m) /\
  match ending l, ending m with
  | ByNewline _, ByNewline _ => True
  | ByContinuation e, ByContinuation f => e = f
  | ByEof, ByEof => True
  | _, _ => False
  end.

Lemma look_snoc (acc acc' : list placed) p q :
  map look acc = map look acc' -> look p = look q ->
  map look (acc ++ [p]) = map look (acc' ++ [q]).
Proof. intros A B. rewrite !map_app. cbn. congruence. Qed.
Lemma split_alike (ps : list placed) : forall (qs acc acc' : list placed),
  map look ps = map look qs -> map look acc = map look acc' ->
  Forall2 alike (split_lines acc ps) (split_lines acc' qs).
Proof.
  induction ps as [|[b e] ps IH]; intros qs acc acc' E A.
  - destruct qs; [|discriminate]. cbn. repeat constructor; cbn; auto.
  - destruct qs as [|[b' e'] qs]; [discriminate|]. cbn in E. injection E as X E.
    pose proof X as Y. looks X.
    + destruct e; cbn; try (apply IH; [exact E|apply look_snoc; auto]);
      (constructor; [split; [exact A|cbn; auto]|apply IH; auto]).
    + cbn. apply IH; [exact E|]. apply look_snoc; auto.
Qed.

Lemma leading_alike (ps qs : list placed) :
  map look ps = map look qs ->
  map look (leading ps) = map look (leading qs) /\
  map look (content ps) = map look (content qs).
Proof.
  revert qs. induction ps as [|[b e] ps IH]; intros [|[b' e'] qs] E; try discriminate.
  - auto.
  - cbn in E. injection E as X E. pose proof X as Y. looks X.
    + cbn. destruct (is_blank e); cbn.
      * destruct (IH qs E). split; congruence.
      * split; congruence.
    + split; [reflexivity|]. cbn [content is_blank map]. congruence.
Qed.
Lemma indentation_alike (ps qs : list placed) :
  map look ps = map look qs -> indentation ps = indentation qs.
Proof.
  intros E. unfold indentation. apply leading_alike in E. destruct E as [E _].
  revert E. generalize (leading ps) (leading qs). intros xs ys. revert ys.
  assert (G : forall (zs : list placed), length (filter is_space zs)
     = length (filter (fun e => match e with Space => true | _ => false end) (map look zs))).
  { induction zs as [|[b e] zs IH]; cbn; [reflexivity|].
    unfold is_space at 1, look at 1. cbn. destruct e; cbn; congruence. }
  intros ys E. now rewrite (G xs), (G ys), E.
Qed.
Lemma tokens_alike (ps qs : list placed) : forall prev prev',
  abuts prev = abuts prev' -> map look ps = map look qs ->
  map payload (elems_tokens prev ps) = map payload (elems_tokens prev' qs).
Proof.
  revert qs. induction ps as [|[b e] ps IH]; intros [|[b' e'] qs] prev prev' A E;
    try discriminate.
  - reflexivity.
  - cbn in E. injection E as X E. cbn [elems_tokens snd]. rewrite !map_app.
    looks X.
    + f_equal; [|apply IH; [reflexivity|exact E]]. destruct e; try reflexivity.
      cbn. now rewrite A.
    + f_equal. apply IH; [reflexivity|exact E].
Qed.
Lemma errors_alike (ps qs : list placed) :
  map look ps = map look qs ->
  map c_message (elems_errors ps) = map c_message (elems_errors qs).
Proof.
  revert qs. induction ps as [|[b e] ps IH]; intros [|[b' e'] qs] E; try discriminate.
  - reflexivity.
  - cbn in E. injection E as X E. cbn [elems_errors flat_map]. rewrite !map_app.
    f_equal; [|apply IH; exact E]. looks X; [|reflexivity]. destruct e; reflexivity.
Qed.
Lemma continuing_alike (ps qs : list placed) :
  map look ps = map look qs -> continuing ps = continuing qs.
Proof.
  intros E. unfold continuing.
  assert (R : map look (rev ps) = map look (rev qs)) by (rewrite !map_rev; congruence).
  destruct (rev ps) as [|[b e] r], (rev qs) as [|[b' e'] r']; try discriminate; auto.
  cbn in R. injection R as X _. looks X; reflexivity.
Qed.

Definition layouts_alike (x y : option (list token * list cause * list N)) : Prop :=
  match x, y with
  | None, None => True
  | Some (t, e, s), Some (t', e', s') =>
    map payload t = map payload t' /\ map c_message e = map c_message e' /\ s = s'
  | _, _ => False
  end.

Lemma layout_alike ls : forall ms stack joined prev,
  Forall2 alike ls ms ->
  layouts_alike (layout stack joined prev ls) (layout stack joined prev ms).
Proof.
  induction ls as [|l ls IH]; intros ms stack joined prev F; inversion F; subst.
  - cbn. auto.
  - rename y into m, l' into ms'. cbn [layout].
    match goal with A : alike l m |- _ => destruct A as [B E] end.
    destruct (leading_alike _ _ B) as [BL BC].
    assert (J : joins_next joined l = joins_next joined m).
    { unfold joins_next. rewrite (continuing_alike _ _ B).
      destruct (ending l), (ending m); try contradiction; auto;
      destruct (content (body l)), (content (body m)); try discriminate; auto. }
    assert (LE : last_elem l = last_elem m).
    { unfold last_elem. destruct (ending l), (ending m); try contradiction; congruence. }
    assert (TM : map payload (terminator l) = map payload (terminator m)).
    { unfold terminator. rewrite (continuing_alike _ _ B).
      destruct (ending l), (ending m); try contradiction; auto.
      destruct (content (body l)) as [|[b1 e1] c1], (content (body m)) as [|[b2 e2] c2];
        try discriminate; auto.
      cbn in BC. injection BC as X _. cbn.
      looks X; destruct (continuing _); try reflexivity. destruct e1; reflexivity. }
    rewrite J, LE.
    assert (O : layouts_alike
       match content (body l) with
       | nil => Some (nil, nil, stack)
       | first :: _ => open_line stack joined (indentation (body l)) first
       end
       match content (body m) with
       | nil => Some (nil, nil, stack)
       | first :: _ => open_line stack joined (indentation (body m)) first
       end).
    { rewrite (indentation_alike _ _ B).
      destruct (content (body l)) as [|[b1 e1] c1], (content (body m)) as [|[b2 e2] c2];
        try discriminate; [cbn; auto|].
      cbn in BC. injection BC as X _. unfold open_line.
      assert (FC : first_cluster e1 = first_cluster e2).
      { looks X; [reflexivity|]. unfold first_cluster. cbn.
        destruct tt, tt'; try discriminate; [reflexivity|]. now injection X. }
      rewrite FC.
      destruct (_ =? _)%N; [cbn; auto|].
      destruct (_ <? _)%N; [destruct joined; cbn; auto|].
      assert (RP : forall x y n, payload x = payload y ->
        map payload (repeat x n) = map payload (repeat y n)).
      { induction n; cbn; intros; [reflexivity|]. f_equal; auto. }
      destruct (filter _ stack) as [|n r].
      - cbn. split; [apply RP; reflexivity|]. destruct (_ =? _)%N; auto.
      - destruct (_ =? _)%N; cbn; auto. }
    destruct (match content (body l) with nil => _ | _ :: _ => _ end)
      as [[[op mi] st]|];
    destruct (match content (body m) with nil => _ | _ :: _ => _ end)
      as [[[op' mi'] st']|]; cbn in O; try contradiction; [|exact I].
    destruct O as (O1 & O2 & <-).
    specialize (IH ms' st (joins_next joined m) (last_elem m) H3).
    destruct (layout st (joins_next joined m) (last_elem m) ls) as [[[t e] s]|],
             (layout st (joins_next joined m) (last_elem m) ms') as [[[t' e'] s']|];
      cbn in IH; try contradiction; [|exact I].
    destruct IH as (I1 & I2 & <-). cbn. rewrite !map_app.
    rewrite O1, O2, I1, I2, TM, (tokens_alike _ _ prev prev eq_refl B),
      (errors_alike _ _ BL), (errors_alike _ _ BC). auto.
Qed.

Lemma layouts_same x y gs gs' :
  layouts_alike x y ->
  same_result
    (match match x with
           | None => None
           | Some (toks, nil, stack) => Some (Ok (toks ++ closing (length stack) gs))
           | Some (_, errs, _) => Some (Err errs)
           end with None => Diverged | Some r => Done r end)
    (match match y with
           | None => None
           | Some (toks, nil, stack) => Some (Ok (toks ++ closing (length stack) gs'))
           | Some (_, errs, _) => Some (Err errs)
           end with None => Diverged | Some r => Done r end).
Proof.
  destruct x as [[[t e] s]|], y as [[[t' e'] s']|]; cbn; try contradiction; auto.
  intros (A & B & <-). destruct e, e'; try discriminate.
  - cbn. rewrite !map_app, A. f_equal. unfold closing. rewrite !map_app. f_equal.
    induction (length s); cbn; [reflexivity|]. now f_equal.
  - exact B.
Qed.

Lemma layouts_alike_refl x : layouts_alike x x.
Proof. destruct x as [[[t e] s]|]; cbn; auto. Qed.
Lemma layouts_alike_trans x y z :
  layouts_alike x y -> layouts_alike y z -> layouts_alike x z.
Proof.
  destruct x as [[[t e] s]|], y as [[[t' e'] s']|], z as [[[t2 e2] s2]|]; cbn;
    try contradiction; auto.
  intros (A & B & C) (A' & B' & C'). repeat split; congruence.
Qed.

Lemma map_snd_place es : forall b, map snd (place b es) = es.
Proof. induction es as [|e es IH]; intros b; cbn; congruence. Qed.

Lemma scan_pair U gs es gs' es' :
  sane U -> valid_source gs -> valid_source gs' ->
  lexes U gs es -> lexes U gs' es' ->
  layouts_alike (layout nil false None (source_lines es))
                (layout nil false None (source_lines es')) ->
  same_result (scan_tokens U gs) (scan_tokens U gs').
Proof.
  intros Sn V V' L L' A.
  rewrite (scan_correct U Sn gs es V L), (scan_correct U Sn gs' es' V' L').
  unfold scan_spec. apply layouts_same. exact A.
Qed.

(** ** Layout of a concatenation *)
Definition glue (x : option (list token * list cause * list N))
    (k : list N -> option (list token * list cause * list N)) :=
  match x with
  | None => None
  | Some (t, e, s) => match k s with
                      | None => None
                      | Some (t', e', s') => Some (t ++ t', e ++ e', s')
                      end
  end.
Definition last_prev (prev : option elem) (ls : list line) : option elem :=
  match rev ls with nil => prev | l :: _ => last_elem l end.
Lemma last_prev_cons prev l ls : last_prev prev (l :: ls) = last_prev (last_elem l) ls.
Proof. unfold last_prev. cbn. destruct (rev ls); reflexivity. Qed.

Lemma layout_app a : forall stack joined prev b,
  layout stack joined prev (a ++ b) =
  glue (layout stack joined prev a)
       (fun s => layout s (snd (walk stack joined a)) (last_prev prev a) b).
Proof.
  induction a as [|l a IH]; intros stack joined prev b.
  - cbn. destruct (layout stack joined prev b) as [[[t e] s]|]; reflexivity.
  - cbn [app layout].
    destruct (match content (body l) with nil => _ | _ :: _ => _ end)
      as [[[op mi] st]|] eqn:E; [|reflexivity].
    assert (ST : st = match content (body l) with
                      | nil => stack
                      | _ => new_levels stack joined (indentation (body l))
                      end).
    { destruct (content (body l)) as [|p c]; [congruence|].
      now apply open_line_some in E. }
    rewrite IH, last_prev_cons. cbn [walk]. rewrite <- ST.
    destruct (layout st (joins_next joined l) (last_elem l) a) as [[[t e] s]|]; [|reflexivity].
    cbn [glue].
    destruct (layout s _ _ b) as [[[t' e'] s']|]; [|reflexivity].
    rewrite <- !app_assoc. reflexivity.
Qed.

Lemma glue_alike x k y k' :
  layouts_alike x y ->
  (forall t e s, x = Some (t, e, s) -> layouts_alike (k s) (k' s)) ->
  layouts_alike (glue x k) (glue y k').
Proof.
  intros A B. destruct x as [[[t e] s]|], y as [[[t' e'] s']|]; cbn in *; try contradiction; auto.
  destruct A as (A1 & A2 & <-). specialize (B _ _ _ eq_refl).
  destruct (k s) as [[[t2 e2] s2]|], (k' s) as [[[t3 e3] s3]|]; cbn in *; try contradiction; auto.
  destruct B as (B1 & B2 & <-). rewrite !map_app. repeat split; congruence.
Qed.

(** Only whether the previous element is whitespace matters. *)
Lemma layout_prev stack joined p q ls :
  abuts p = abuts q -> layout stack joined p ls = layout stack joined q ls.
Proof.
  intros A. destruct ls as [|l ls]; [reflexivity|]. cbn [layout].
  assert (T : elems_tokens p (body l) = elems_tokens q (body l)).
  { destruct (body l) as [|[b e] r]; [reflexivity|]. cbn. f_equal.
    destruct e; try reflexivity. cbn. now rewrite A. }
  now rewrite T.
Qed.

(** ** Cutting at a newline *)
Lemma split_newline a : forall acc b0 r,
  exists pre, split_lines acc (@app placed a (@cons placed (b0, Newline) r))
              = pre ++ split_lines nil r /\
    last_prev None pre = Some Newline /\
    split_lines acc (@app placed a [(b0, Newline)]) = pre ++ [mkLine nil ByEof].
Proof.
  induction a as [|[b e] a IH]; intros acc b0 r.
  - exists [mkLine acc (ByNewline b0)]. repeat split.
  - destruct (is_line_end e) eqn:LE.
    + destruct (IH nil b0 r) as (pre & E1 & E2 & E3).
      assert (SL : exists en, forall ps, split_lines acc ((b, e) :: ps)
                = mkLine acc en :: split_lines nil ps)
        by (destruct e; try discriminate LE; eexists; reflexivity).
      destruct SL as (en & SL). exists (mkLine acc en :: pre).
      cbn [app]. rewrite !SL, E1, E3. repeat split.
      rewrite last_prev_cons. unfold last_prev in *. destruct (rev pre); congruence.
    + assert (SL : forall ps, split_lines acc ((b, e) :: ps)
                   = split_lines (acc ++ [(b, e)]) ps)
        by (destruct e; try discriminate LE; reflexivity).
      cbn [app]. rewrite !SL. apply IH.
Qed.

(** The lines of whole lines followed by more. *)
Lemma whole_lines_split es :
  whole_lines es ->
  exists pre, (forall es2, exists ps, map snd ps = es2 /\
                 source_lines (es ++ es2) = pre ++ split_lines nil ps) /\
    abuts (last_prev None pre) = false /\
    source_lines es = pre ++ [mkLine nil ByEof].
Proof.
  intros [->|(a & ->)].
  - exists nil. repeat split. intros es2. exists (place nil es2).
    split; [apply map_snd_place|reflexivity].
  - destruct (split_newline (place nil a) nil (nil ++ text_of a) nil) as (pre & E1 & E2 & E3).
    exists pre. split; [|split].
    + intros es2. exists (place ((nil ++ text_of a) ++ [s_nl]) es2).
      split; [apply map_snd_place|].
      destruct (split_newline (place nil a) nil (nil ++ text_of a)
                  (place ((nil ++ text_of a) ++ [s_nl]) es2)) as (pre' & F1 & F2 & F3).
      unfold source_lines. rewrite <- app_assoc, place_app. cbn [app place].
      refine (eq_trans F1 _). f_equal.
      pose proof (eq_trans (eq_sym E3) F3) as X. apply app_inj_tail in X.
      now destruct X.
    + rewrite E2. reflexivity.
    + unfold source_lines. rewrite place_app. exact E3.
Qed.

(** ** Lexing a concatenation *)

(** What a lexeme can see of the text after it. *)
Definition same_view (r s : list string) : Prop :=
  firstn 2 r = firstn 2 s \/ exists x y, r = s_nl :: x /\ s = s_nl :: y.
Lemma same_view_next p r s : same_view r s -> next_not p r -> next_not p s.
Proof.
  intros [E|(x & y & -> & ->)] N; [|exact N].
  destruct r as [|g [|h r]], s as [|g' [|h' s]]; cbn in E; try discriminate; auto;
    injection E; intros; subst; exact N.
Qed.
Lemma lexeme_view U e r s : lexeme U e r -> same_view r s -> lexeme U e s.
Proof.
  intros L V. pose proof (fun p => same_view_next p r s V) as N.
  inversion L; subst; try (econstructor; eauto; fail).
  - (* an open string *)
    destruct V as [E|(x & y & E & _)]; [|discriminate].
    destruct s as [|? [|]]; try discriminate. constructor. assumption.
  - constructor; auto. intros (d & t & E & D).
    match goal with H : ~ _ |- _ => apply H end.
    destruct V as [F|(x' & y & _ & ->)]; [|discriminate].
    subst s. destruct r as [|g [|h r]]; cbn in F; try discriminate.
    injection F as -> ->. eauto.
Qed.

Lemma lexes_app_view U a : forall r s c c',
  (forall t, same_view (t ++ r) (t ++ s)) ->
  lexes U (text_of a ++ r) (a ++ c) -> lexes U s c' ->
  lexes U (text_of a ++ s) (a ++ c').
Proof.
  induction a as [|e a IH]; intros r s c c' V L L'; cbn in *; [exact L'|].
  rewrite <- app_assoc in *. inversion L as [|? rest ? L1 L2]; subst.
  match goal with H : _ ++ rest = _ |- _ => apply app_inv_head in H; subst rest end.
  constructor.
  - eapply lexeme_view; [exact L1|]. apply V.
  - eapply IH; eauto.
Qed.
Lemma view_newline x y t : same_view (t ++ s_nl :: x) (t ++ s_nl :: y).
Proof.
  destruct t as [|g [|h t]].
  - right. cbn. eauto.
  - left. reflexivity.
  - left. reflexivity.
Qed.
Lemma view_two g h x y t : same_view (t ++ g :: h :: x) (t ++ g :: h :: y).
Proof. left. destruct t as [|? [|? t]]; reflexivity. Qed.

(** Whole lines lex the same whatever follows. *)
Lemma lexes_whole U x es y es2 :
  lexes U x es -> whole_lines es -> lexes U y es2 -> lexes U (x ++ y) (es ++ es2).
Proof.
  intros L W L2. destruct W as [->|(a & ->)].
  - inversion L; subst. exact L2.
  - pose proof (lexes_text _ _ _ L) as E. subst x. rewrite text_of_app in *.
    cbn [text_of flat_map elem_text app] in *. rewrite <- !app_assoc.
    eapply lexes_app_view; [apply view_newline|exact L|].
    cbn [app]. apply (LexCons U Newline y es2); [constructor|exact L2].
Qed.
Lemma lexes_spaces U n r es :
  lexes U r es -> lexes U (repeat " " n ++ r) (repeat Space n ++ es).
Proof.
  intros L. induction n as [|n IH]; cbn; [exact L|].
  apply (LexCons U Space); [constructor|exact IH].
Qed.

Lemma valid_spaces n r : valid_source r -> valid_source (repeat " " n ++ r).
Proof.
  intros V. apply Forall_app. split; [|exact V].
  apply Forall_forall. intros g I. apply repeat_spec in I. subst. cbn. left.
  reflexivity.
Qed.
Lemma valid_nl r : valid_source r -> valid_source (s_nl :: r).
Proof. intros V. constructor; [cbn; left; reflexivity|exact V]. Qed.

Lemma split_spaces ps : forall acc r,
  Forall (fun p : placed => is_line_end (snd p) = false) ps ->
  split_lines acc (@app placed ps r) = split_lines (@app placed acc ps) r.
Proof.
  induction ps as [|[b e] ps IH]; intros acc r F.
  - now rewrite app_nil_r.
  - inversion F as [|? ? F1 F2]; subst. cbn in F1. cbn [app].
    assert (SL : split_lines acc (@cons placed (b, e) (@app placed ps r))
                   = split_lines (@app placed acc [(b, e)]) (@app placed ps r))
        by (destruct e; try discriminate; reflexivity).
    refine (eq_trans SL _). rewrite IH by exact F2. now rewrite <- app_assoc.
Qed.

Lemma split_one mid : forall ps es2,
  map snd ps = mid ++ Newline :: es2 ->
  Forall (fun e => is_line_end e = false) mid ->
  exists m b qs, split_lines nil ps = mkLine m (ByNewline b) :: split_lines nil qs /\
    map snd m = mid /\ map snd qs = es2.
Proof.
  intros ps es2 E F.
  apply map_eq_app in E. destruct E as (m & r & -> & E1 & E2).
  destruct r as [|[b e] qs]; [discriminate|]. cbn in E2. injection E2 as -> E2.
  exists m, b, qs. split; [|auto].
  assert (Fm : Forall (fun p : placed => is_line_end (snd p) = false) m).
  { rewrite <- E1 in F. rewrite Forall_map in F. exact F. }
  refine (eq_trans (split_spaces m nil _ Fm) _). reflexivity.
Qed.

(** Inserting a line that adds nothing, after whole lines. *)
Lemma insert_line U x es1 mid y :
  sane U -> valid_source (x ++ y) -> valid_source (text_of mid) ->
  lexes U x es1 -> whole_lines es1 ->
  lexes U (text_of mid ++ [s_nl]) (mid ++ [Newline]) ->
  Forall (fun e => is_line_end e = false) mid ->
  (forall m b, map snd m = mid ->
     let l := mkLine m (ByNewline b) in
     let ls := source_lines es1 in
     elems_tokens None m = nil /\ terminator l = nil /\ elems_errors m = nil /\
     joins_next (is_joined ls) l = is_joined ls /\
     (content m = nil \/ indentation m = hd 0%N (open_levels ls))) ->
  same_result (scan_tokens U (x ++ y)) (scan_tokens U (x ++ (text_of mid ++ [s_nl]) ++ y)).
Proof.
  intros Sn V Vm L1 W Lm F S.
  destruct (lexes_total U y) as [es2 L2].
  assert (V2 : valid_source (x ++ (text_of mid ++ [s_nl]) ++ y)).
  { apply Forall_app in V. destruct V as [V1 V2]. apply Forall_app. split; [exact V1|].
    apply Forall_app. split; [|exact V2]. apply Forall_app. split; [exact Vm|].
    apply valid_nl. constructor. }
  assert (Wm : whole_lines (mid ++ [Newline])) by (right; eauto).
  pose proof (lexes_whole U _ _ _ _ Lm Wm L2) as L3.
  eapply (scan_pair U _ (es1 ++ es2) _ (es1 ++ (mid ++ [Newline]) ++ es2)); auto.
  - apply lexes_whole; assumption.
  - apply lexes_whole; assumption.
  - destruct (whole_lines_split es1 W) as (pre & SP & AB & SL).
    destruct (SP es2) as (ps & E1 & ->).
    destruct (SP ((mid ++ [Newline]) ++ es2)) as (ps' & E1' & ->).
    rewrite <- app_assoc in E1'. cbn [app] in E1'.
    destruct (split_one mid ps' es2 E1' F) as (m & b & qs & -> & Em & Eq).
    destruct (S m b Em) as (T & TM & ER & J & I). clear S.
    rewrite SL in J, I.
    assert (JO : is_joined (pre ++ [mkLine nil ByEof]) = snd (walk nil false pre)).
    { rewrite joined_snoc. reflexivity. }
    assert (OL : open_levels (pre ++ [mkLine nil ByEof]) = fst (walk nil false pre)).
    { unfold open_levels at 1. rewrite walk_snoc. reflexivity. }
    rewrite JO in J. rewrite OL in I.
    rewrite !layout_app. apply glue_alike; [apply layouts_alike_refl|].
    intros t e s E. pose proof (layout_final _ _ _ _ _ _ _ E) as ES.
    rewrite <- ES in I. set (j := snd (walk nil false pre)) in *.
    change (mkLine m (ByNewline b) :: split_lines nil qs)
      with ([mkLine m (ByNewline b)] ++ split_lines nil qs).
    rewrite layout_app.
    assert (X : layout s j (last_prev None pre) [mkLine m (ByNewline b)]
                = Some (nil, nil, s)).
    { cbn [layout body].
      assert (T' : elems_tokens (last_prev None pre) m = nil).
      { destruct m as [|[bb ee] r]; [reflexivity|]. cbn in *.
        destruct ee; try discriminate; exact T. }
      rewrite T', TM. unfold elems_errors in *.
      pose proof ER as ER2. rewrite <- (leading_content m), flat_map_app in ER2.
      apply app_eq_nil in ER2. destruct ER2 as [R1 R2]. rewrite R1, R2.
      destruct (content m) as [|[bb ee] r]; [reflexivity|].
      destruct I as [I|I]; [discriminate|].
      unfold open_line. now rewrite I, N.eqb_refl. }
    rewrite X. cbn [glue app walk snd].
    assert (J' : joins_next j (mkLine m (ByNewline b)) = j) by exact J.
    rewrite J'.
    rewrite (layout_prev s j (last_prev _ [_]) (last_prev None pre))
      by (rewrite AB; reflexivity).
    eapply layouts_alike_trans; [apply (layout_alike _ (split_lines nil qs))|].
    + apply split_alike; [|reflexivity].
      assert (M : forall zs : list placed, map look zs
        = map (fun e => match e with Comment t => Comment (firstn 1 t) | e => e end)
              (map snd zs)) by (intros zs; rewrite map_map; apply map_ext; intros [? []]; reflexivity).
      now rewrite (M ps), (M qs), E1, Eq.
    + destruct (layout s j _ (split_lines nil qs)) as [[[t2 e2] s2]|]; cbn; auto.
Qed.

(** ** Blank lines and comments *)
Lemma text_spaces n : text_of (repeat Space n) = repeat " " n.
Proof. induction n as [|n IH]; [reflexivity|]. unfold text_of in *. cbn. now rewrite IH. Qed.
Lemma is_space_ends n : Forall (fun e => is_line_end e = false) (repeat Space n).
Proof. apply Forall_forall. intros e I. apply repeat_spec in I. now subst. Qed.

Lemma spaces_body n : forall (m r : list placed) , map snd m = repeat Space n ->
  (forall prev, elems_tokens prev (m ++ r) =
     elems_tokens (match n with 0 => prev | _ => Some Space end) r) /\
  elems_errors (m ++ r) = elems_errors r /\
  content (m ++ r) = content r /\
  filter is_space (leading (m ++ r)) = m ++ filter is_space (leading r) /\
  length m = n.
Proof.
  induction n as [|n IH]; intros m r E.
  - destruct m; [|discriminate]. cbn. auto.
  - destruct m as [|[b e] m]; [discriminate|]. cbn in E. injection E as -> E.
    destruct (IH m r E) as (A & B & C & D & F). unfold elems_errors in *.
    cbn. rewrite B, C, D, F. repeat split. intros _. rewrite A.
    destruct n; reflexivity.
Qed.

Lemma insert_blank U x es y n :
  sane U -> valid_source (x ++ y) -> lexes U x es -> whole_lines es ->
  same_result (scan_tokens U (x ++ y))
              (scan_tokens U (x ++ (repeat " " n ++ [s_nl]) ++ y)).
Proof.
  intros Sn V L W. rewrite <- text_spaces.
  apply (insert_line U x es (repeat Space n) y); auto.
  - rewrite text_spaces, <- (app_nil_r (repeat _ _)). apply valid_spaces. constructor.
  - rewrite text_spaces. apply lexes_spaces. apply (LexCons U Newline nil nil); constructor.
  - apply is_space_ends.
  - intros m b E. destruct (spaces_body n m nil E) as (A & B & C & D & F).
    rewrite app_nil_r in *. cbn [body ending]. unfold terminator, joins_next.
    cbn [body ending]. rewrite A, B, C. cbn. auto 6.
Qed.

Lemma insert_comment U x es y n txt :
  sane U -> valid_source (x ++ y) -> valid_source txt ->
  Forall (fun g => g <> s_nl) txt ->
  lexes U x es -> whole_lines es ->
  is_joined (source_lines es) = false ->
  N.of_nat n = hd 0%N (open_levels (source_lines es)) -> (N.of_nat n <= u16_max)%N ->
  same_result (scan_tokens U (x ++ y))
    (scan_tokens U (x ++ (repeat " " n ++ "/" :: "/" :: txt ++ [s_nl]) ++ y)).
Proof.
  intros Sn V Vt Ft L W J I Mx.
  set (c := Comment ("/" :: "/" :: txt)).
  assert (T : text_of (repeat Space n ++ [c]) = repeat " " n ++ "/" :: "/" :: txt).
  { rewrite text_of_app, text_spaces. cbn. now rewrite app_nil_r. }
  replace ((repeat " " n ++ "/" :: "/" :: txt ++ [s_nl]) ++ y)
    with ((text_of (repeat Space n ++ [c]) ++ [s_nl]) ++ y)
    by (rewrite T, <- !app_assoc; cbn [app]; rewrite <- !app_assoc; reflexivity).
  apply (insert_line U x es (repeat Space n ++ [c]) y); auto.
  - rewrite T. apply valid_spaces. repeat (constructor; [cbn; left; reflexivity|]).
    exact Vt.
  - rewrite T, <- !app_assoc. apply lexes_spaces.
    apply (LexCons U c [s_nl]); [constructor; [exact Ft|intros X; now apply X]|].
    apply (LexCons U Newline nil nil); constructor.
  - apply Forall_app. split; [apply is_space_ends|]. repeat constructor.
  - intros m b E. apply map_eq_app in E. destruct E as (m1 & m2 & -> & E1 & E2).
    destruct m2 as [|[b2 e2] [|]]; try discriminate. cbn in E2. injection E2 as ->.
    destruct (spaces_body n m1 [(b2, c)] E1) as (A & B & C & D & F).
    cbn [body ending]. unfold terminator, joins_next, indentation. cbn [body ending].
    rewrite A, B, C, D, app_length, F. cbn [content is_blank c].
    assert (K : continuing (m1 ++ [(b2, c)]) = false).
    { unfold continuing. now rewrite rev_app_distr. }
    rewrite K, J. cbn. repeat split; auto. right. rewrite <- I. rewrite Nat.add_0_r.
    unfold u16_max in *. lia.
Qed.

Lemma replace_comment U gs gs' a txt txt' c :
  sane U -> valid_source gs -> valid_source gs' ->
  lexes U gs (a ++ Comment ("/" :: "/" :: txt) :: c) ->
  Forall (fun g => g <> s_nl) txt' ->
  gs' = text_of a ++ ("/" :: "/" :: txt') ++ text_of c ->
  same_result (scan_tokens U gs) (scan_tokens U gs') /\
  lexes U gs' (a ++ Comment ("/" :: "/" :: txt') :: c).
Proof.
  intros Sn V V' L F ->.
  pose proof (lexes_text _ _ _ L) as E. rewrite text_of_app in E.
  assert (E2 : gs = text_of a ++ "/" :: "/" :: txt ++ text_of c) by (rewrite E; reflexivity).
  clear E. subst gs.
  assert (Lc : exists r, r = text_of c /\ lexes U r c /\ next_not (fun g => g <> s_nl) r).
  { destruct (lexes_app_inv U a _ _ L) as (r & E & L2).
    inversion L2 as [|? rest ? L3 L4]; subst.
    exists rest. split; [now apply lexes_text in L4|]. split; [exact L4|].
    inversion L3; subst; assumption. }
  destruct Lc as (r & -> & Lc & Nx).
  assert (L' : lexes U (text_of a ++ "/" :: "/" :: txt' ++ text_of c)
                 (a ++ Comment ("/" :: "/" :: txt') :: c)).
  { eapply lexes_app_view; [apply view_two|exact L|].
    apply (LexCons U (Comment ("/" :: "/" :: txt'))); [|exact Lc].
    now constructor. }
  split; [|exact L'].
  eapply scan_pair; eauto.
  (* the layout does not look into comments *)
  apply layout_alike. apply split_alike; [|reflexivity].
  assert (M : forall zs : list placed, map look zs
        = map (fun e => match e with Comment t => Comment (firstn 1 t) | e => e end)
              (map snd zs)) by (intros zs; rewrite map_map; apply map_ext; intros [? []]; reflexivity).
  rewrite !M, !map_snd_place, !map_app. reflexivity.
Qed.

(** ** CR LF *)
Lemma crlf_inside U e rest :
  u_alphabetic U 13 = false -> u_alphanumeric U 13 = false ->
  lexeme U e rest -> In s_crlf (elem_text e) ->
  (exists t, e = Comment t) \/ (exists t s, e = Tok TString t s None) \/
  is_illegal e = true.
Proof.
  intros A1 A2 L I.
  assert (NW : ~ continues_word U s_crlf).
  { intros (c & E & K). cbv in E. injection E as <-. intuition congruence. }
  assert (NS : ~ starts_word U s_crlf).
  { intros (c & E & K). cbv in E. injection E as <-. intuition congruence. }
  assert (ND : ~ digit_cluster s_crlf).
  { intros D. cbv in D. intuition discriminate. }
  assert (SP : forall n, ~ In s_crlf (repeat " " n)).
  { intros n J. apply repeat_spec in J. discriminate. }
  assert (P : forall s, In s [s] -> s = s_crlf -> s = s_crlf) by auto.
  inversion L; subst; cbn [elem_text] in I; eauto; exfalso.
  - destruct I as [I|[]]. subst. cbv in H. intuition discriminate.
  - destruct I as [I|[I|[]]]; [|discriminate]. subst. cbv in H. intuition discriminate.
  - destruct I as [I|[]]. subst. cbv in H. intuition discriminate.
  - destruct I as [I|[]]. discriminate.
  - rewrite Forall_forall in H0. apply ND. now apply H0.
  - apply in_app_or in I. rewrite Forall_forall in H0, H2. destruct I as [I|[I|I]].
    + apply ND. now apply H0.
    + discriminate.
    + apply ND. now apply H2.
  - destruct I as [I|I]; [subst; contradiction|]. rewrite Forall_forall in H2.
    apply NW. now apply H2.
  - destruct I as [I|[]]. discriminate.
  - destruct I as [I|[]]. discriminate.
  - destruct I as [I|[]]. discriminate.
  - destruct I as [I|I]; [discriminate|]. apply in_app_or in I.
    destruct I as [I|I]; [now apply SP in I|].
    destruct H as [-> | ->]; cbv in I; intuition discriminate.
Qed.
