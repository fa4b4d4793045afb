(** Spaces after a token do not matter, except before an opening parenthesis and
    between an operator and the end of its line. *)
From Verif Require Import Base F64 Token Scanner SpecLex SpecLayout SpecScan SpecPlace
  StrFacts ScanLex ScanStep ScanCluster ScanLayout ScanUnique ScanProps ScanErrors ScanPairs.

Section Lexing.
Variable U : unicode.
Hypothesis SP : u_alphanumeric U 32%N = false.

Lemma space_no_word : ~ continues_word U " ".
Proof. intros (c & F & [H|H]); cbn in F; injection F as <-; [congruence|discriminate]. Qed.
Lemma space_no_digit : ~ digit_cluster " ".
Proof. cbn. intuition discriminate. Qed.

Lemma lexeme_later e g t r s : lexeme U e (g :: t ++ r) -> lexeme U e (g :: t ++ " " :: s).
Proof.
  intros L. inversion L; subst; try (econstructor; eauto; fail).
  constructor; auto. intros (d & x' & E & D).
  match goal with H : ~ _ |- _ => apply H end. injection E as -> E.
  destruct t as [|h t]; cbn in E.
  - injection E as <- _. now apply space_no_digit in D.
  - injection E as -> _. cbn. eauto.
Qed.
Lemma lexeme_now k text str num r s :
  lexeme U (Tok k text str num) r -> lexeme U (Tok k text str num) (" " :: s).
Proof.
  intros L. inversion L; subst.
  - now apply LPunct.
  - eapply LOpEq; eauto.
  - eapply LOp; eauto. cbn. discriminate.
  - apply LSlash. cbn. discriminate.
  - now apply LString.
  - apply LInteger; auto. { exact space_no_digit. } intros (d & x' & E & D). discriminate.
  - apply LDecimal; auto. exact space_no_digit.
  - apply LWord; auto. exact space_no_word.
Qed.
Lemma text_spaces n : text_of (repeat Space n) = repeat " " n.
Proof. induction n as [|n IH]; cbn; [reflexivity|]. now f_equal. Qed.
Lemma lexes_space a k text str num b n :
  text <> nil ->
  lexes U (text_of (a ++ Tok k text str num :: b)) (a ++ Tok k text str num :: b) ->
  lexes U (text_of (a ++ Tok k text str num :: repeat Space n ++ b))
          (a ++ Tok k text str num :: repeat Space n ++ b).
Proof.
  intros NE. destruct n as [|n]; [exact (fun H => H)|]. 
  induction a as [|e a IH]; intros L; cbn in *.
  - inversion L as [|? rest ? L1 L2 E]; subst. apply app_inv_head in E. subst rest.
    apply (LexCons U (Tok k text str num)).
    + eapply lexeme_now; eauto.
    + change (Space :: repeat Space n ++ b) with (repeat Space (S n) ++ b).
      rewrite text_of_app, text_spaces. exact (lexes_spaces U (S n) _ _ L2).
  - inversion L as [|? rest ? L1 L2 E]; subst. apply app_inv_head in E. subst rest.
    constructor; [|now apply IH].
    rewrite text_of_app in *. cbn [text_of flat_map elem_text repeat app] in *.
    destruct (text_of a) as [|g t].
    + destruct text as [|g t]; [congruence|]. cbn [app] in *. eapply lexeme_later; eauto.
    + cbn [app] in *. rewrite (app_assoc t) in *. eapply lexeme_later; eauto.
Qed.
End Lexing.

(** ** Layout *)
Lemma split_head (ps : list placed) : exists q en rest, (en = ByEof -> rest = nil) /\
  (exists tail, ps = @app placed q tail /\
     match en with ByNewline b => exists r, tail = @cons placed (b, Newline) r | _ => True end) /\
  forall acc, split_lines acc ps = mkLine (@app placed acc q) en :: rest.
Proof.
  induction ps as [|[b e] ps IH].
  - exists nil, ByEof, nil. split; [auto|]. split; [exists nil; auto|]. intros acc. now rewrite app_nil_r.
  - destruct (is_line_end e) eqn:LE.
    + destruct e; try discriminate LE.
      * exists nil, (ByNewline b), (split_lines nil ps). split; [discriminate|]. split; [eexists; split; [reflexivity|eauto]|]. intros. now rewrite app_nil_r.
      * exists nil, (ByContinuation (Continuation text)), (split_lines nil ps). split; [discriminate|]. split; [eexists; split; [reflexivity|auto]|]. intros. now rewrite app_nil_r.
    + destruct IH as (q & en & rest & NE & (tail & PS & TL) & IH). exists ((b, e) :: q), en, rest. split; [exact NE|].
      split; [exists tail; split; [cbn; now rewrite PS|exact TL]|]. intros acc.
      assert (SL : split_lines acc ((b, e) :: ps) = split_lines (acc ++ [(b, e)]) ps)
        by (destruct e; try discriminate LE; reflexivity).
      rewrite SL, IH, <- app_assoc. reflexivity.
Qed.
(** Where the lines are cut before the elements [b] depends on the elements
    before only. *)
Lemma split_before (a : list placed) : forall acc, exists pre acc', forall b : list placed,
  split_lines acc (@app placed a b) = pre ++ split_lines acc' b.
Proof.
  induction a as [|[b0 e] a IH]; intros acc.
  - exists nil, acc. reflexivity.
  - destruct (is_line_end e) eqn:LE.
    + assert (SL : exists en, forall ps, split_lines acc ((b0, e) :: ps)
                = mkLine acc en :: split_lines nil ps)
        by (destruct e; try discriminate LE; eexists; reflexivity).
      destruct SL as (en & SL). destruct (IH nil) as (pre & acc' & E).
      exists (mkLine acc en :: pre), acc'. intros b. cbn [app]. now rewrite SL, E.
    + assert (SL : forall ps, split_lines acc ((b0, e) :: ps)
                   = split_lines (acc ++ [(b0, e)]) ps)
        by (destruct e; try discriminate LE; reflexivity).
      destruct (IH (acc ++ [(b0, e)])) as (pre & acc' & E).
      exists pre, acc'. intros b. cbn [app]. now rewrite SL, E.
Qed.

(** Lines with the same effect. *)
Definition effect (l m : line) : Prop :=
  map look (leading (body l)) = map look (leading (body m)) /\
  match content (body l), content (body m) with
  | nil, nil => True
  | p :: _, q :: _ => look p = look q
  | _, _ => False
  end /\
  (forall prev, map payload (elems_tokens prev (body l)) = map payload (elems_tokens prev (body m))) /\
  map c_message (elems_errors (content (body l))) = map c_message (elems_errors (content (body m))) /\
  match ending l, ending m with
  | ByNewline _, ByNewline _ => continuing (body l) = continuing (body m)
  | ByContinuation e, ByContinuation f => e = f
  | ByEof, ByEof => True
  | _, _ => False
  end.
Lemma leading_leading (ps : list placed) : leading (leading ps) = leading ps.
Proof. induction ps as [|[b e] ps IH]; cbn; auto. destruct (is_blank e) eqn:B; cbn; auto. rewrite B. congruence. Qed.
Lemma indentation_leading (ps qs : list placed) :
  map look (leading ps) = map look (leading qs) -> indentation ps = indentation qs.
Proof.
  intros E. apply indentation_alike in E. unfold indentation in *. now rewrite !leading_leading in E.
Qed.

Lemma layout_effect l m ls ms stack joined prev : effect l m -> Forall2 alike ls ms ->
  (ending l = ByEof -> ls = nil) ->
  layouts_alike (layout stack joined prev (l :: ls)) (layout stack joined prev (m :: ms)).
Proof.
  intros (BL & BC & T & ER & EN) F EO. cbn [layout].
  assert (LE : last_elem l = last_elem m).
  { unfold last_elem. destruct (ending l), (ending m); try contradiction; congruence. }
  assert (TM : map payload (terminator l) = map payload (terminator m)).
  { unfold terminator. destruct (ending l), (ending m); try contradiction; auto. rewrite EN.
    destruct (content (body l)) as [|[b1 e1] c1], (content (body m)) as [|[b2 e2] c2]; try contradiction; auto.
    cbn. looks BC; destruct (continuing (body m)); try reflexivity. destruct e1; reflexivity. }
  assert (O : layouts_alike
       match content (body l) with
       | nil => Some (nil, nil, stack)
       | first :: _ => open_line stack joined (indentation (body l)) first
       end
       match content (body m) with
       | nil => Some (nil, nil, stack)
       | first :: _ => open_line stack joined (indentation (body m)) first
       end).
  { rewrite (indentation_leading _ _ BL).
    destruct (content (body l)) as [|[b1 e1] c1], (content (body m)) as [|[b2 e2] c2];
      try contradiction; [cbn; auto|]. unfold open_line.
    assert (FC : first_cluster e1 = first_cluster e2).
    { looks BC; [reflexivity|]. unfold first_cluster. cbn.
      destruct tt, tt'; try discriminate; [reflexivity|]. now injection BC. }
    rewrite FC.
    destruct (_ =? _)%N; [cbn; auto|].
    destruct (_ <? _)%N; [destruct joined; cbn; auto|].
    assert (RP : forall x y n, payload x = payload y ->
      map payload (repeat x n) = map payload (repeat y n)).
    { induction n; cbn; intros; [reflexivity|]. f_equal; auto. }
    destruct (filter _ stack) as [|n r].
    - cbn. split; [apply RP; reflexivity|]. destruct (_ =? _)%N; auto.
    - destruct (_ =? _)%N; cbn; auto. }
  destruct (match content (body l) with nil => _ | _ :: _ => _ end)
    as [[[op mi] st]|];
  destruct (match content (body m) with nil => _ | _ :: _ => _ end)
    as [[[op' mi'] st']|]; cbn in O; try contradiction; [|exact I].
  destruct O as (O1 & O2 & <-).
  assert (IH : layouts_alike (layout st (joins_next joined l) (last_elem l) ls)
                             (layout st (joins_next joined m) (last_elem m) ms)).
  { rewrite LE. destruct (ending l) eqn:E1, (ending m) eqn:E2; try contradiction.
    - assert (J : joins_next joined l = joins_next joined m).
      { unfold joins_next. rewrite E1, E2, EN.
        destruct (content (body l)), (content (body m)); try contradiction; auto. }
      rewrite J. now apply layout_alike.
    - assert (J : joins_next joined l = joins_next joined m) by (unfold joins_next; now rewrite E1, E2).
      rewrite J. now apply layout_alike.
    - rewrite (EO eq_refl) in *. inversion F; subst. cbn. auto. }
  destruct (layout st (joins_next joined l) (last_elem l) ls) as [[[t e] s]|],
           (layout st (joins_next joined m) (last_elem m) ms) as [[[t' e'] s']|];
    cbn in IH; try contradiction; [|exact I].
  destruct IH as (I1 & I2 & <-). cbn. rewrite !map_app.
  rewrite O1, O2, I1, I2, TM, T, (errors_alike _ _ BL), ER. auto.
Qed.

Lemma content_app (p q : list placed) x : is_blank (snd x) = false ->
  leading (p ++ x :: q) = leading (p ++ [x]) /\
  content (p ++ x :: q) = content (p ++ [x]) ++ q /\ content (p ++ [x]) <> nil.
Proof.
  intros B. induction p as [|[b e] p (I1 & I2 & I3)]; cbn.
  - destruct x as [b e]. cbn in B. rewrite B. repeat split; auto. discriminate.
  - destruct (is_blank e); cbn.
    + repeat split; auto. now rewrite I1.
    + repeat split; auto; try discriminate. now rewrite <- app_assoc.
Qed.
Lemma tokens_app prev (p q : list placed) x :
  elems_tokens prev (p ++ x :: q) = elems_tokens prev (p ++ [x]) ++ elems_tokens (Some (snd x)) q.
Proof.
  revert prev. induction p as [|y p IH]; intros prev; cbn.
  - now rewrite app_nil_r.
  - now rewrite IH, <- app_assoc.
Qed.

Lemma last_continuing (p : list placed) x : continuing (p ++ [x]) = match x with (_, Tok k _ _ _) => continuing_kind k | _ => false end.
Proof. unfold continuing. rewrite rev_app_distr. cbn. destruct x as [? []]; reflexivity. Qed.
Lemma continuing_tail (p q : list placed) x y : continuing (p ++ x :: q ++ [y]) = continuing [y].
Proof. unfold continuing. rewrite rev_app_distr. cbn. rewrite rev_app_distr. cbn. destruct y as [? []]; reflexivity. Qed.

(** The spaces [sp] between the token [x] and the rest of its line. *)
Lemma spaces_effect (p q q' sp : list placed) b k text str num en en' :
  Forall (fun y => snd y = Space) sp ->
  map look q = map look q' ->
  match en, en' with
  | ByNewline _, ByNewline _ => q = nil -> continuing_kind k = false
  | ByContinuation e, ByContinuation f => e = f
  | ByEof, ByEof => True
  | _, _ => False
  end ->
  match q with (_, Tok LeftParen _ _ _) :: _ => False | _ => True end ->
  effect (mkLine (p ++ (b, Tok k text str num) :: q) en)
         (mkLine (p ++ (b, Tok k text str num) :: sp ++ q') en').
Proof.
  intros SPC E EN NP. set (x := (b, Tok k text str num)). 
  assert (B : is_blank (snd x) = false) by reflexivity.
  destruct (content_app p q x B) as (A1 & A2 & A3).
  destruct (content_app p (sp ++ q') x B) as (B1 & B2 & _).
  unfold effect. cbn [body ending]. rewrite A1, A2, B1, B2. split; [reflexivity|]. split.
  { destruct (content (p ++ [x])); [congruence|]. reflexivity. }
  split.
  { intros prev. rewrite (tokens_app prev p q), (tokens_app prev p (sp ++ q')), !map_app. f_equal.
    assert (ST : forall o, elems_tokens o (sp ++ q') = elems_tokens (match sp with nil => o | _ => Some Space end) q').
    { clear - SPC. induction SPC as [|[b0 e0] sp S1 S2 IH]; intros o; [reflexivity|]. cbn in S1. subst e0.
      cbn. rewrite IH. destruct sp; reflexivity. }
    rewrite ST. clear - E NP. subst x. cbn [snd].
    destruct q as [|[b1 e1] q], q' as [|[b2 e2] q']; try discriminate; [reflexivity|].
    cbn in E. injection E as X E. cbn [elems_tokens snd]. rewrite !map_app. looks X.
    - f_equal; [|now apply tokens_alike]. destruct e1; try reflexivity. cbn. destruct k0; try contradiction; reflexivity.
    - f_equal. now apply tokens_alike. }
  split.
  { unfold elems_errors. rewrite !flat_map_app, !map_app. f_equal.
    assert (SE : flat_map elem_errors sp = nil).
    { clear - SPC. induction SPC as [|[b0 e0] sp S1 S2 IH]; auto. cbn in *. now subst e0. }
    rewrite SE. cbn. apply (errors_alike q q' E). }
  destruct en, en'; try contradiction; auto.
  destruct q as [|y q] using rev_ind.
  - destruct q'; [|discriminate]. rewrite last_continuing, app_nil_r. cbn. rewrite (EN eq_refl).
    destruct sp as [|s sp] using rev_ind; [now rewrite last_continuing; cbn; rewrite (EN eq_refl)|].
    rewrite continuing_tail. apply Forall_app in SPC. destruct SPC as [_ SPC]. inversion SPC; subst.
    destruct s as [b0 e0]. cbn in *. now subst.
  - clear IHq. destruct q' as [|y' q'] using rev_ind; [rewrite map_app in E; destruct q; discriminate|]. clear IHq'.
    rewrite !map_app in E. apply app_inj_tail in E. destruct E as [_ E].
    rewrite continuing_tail, app_assoc, continuing_tail. destruct y as [b1 e1], y' as [b2 e2]. now looks E.
Qed.

Lemma look_place es : forall b, map look (place b es) = map (fun e => look (nil, e)) es.
Proof. induction es as [|e es IH]; intros b; cbn [place map]; [reflexivity|]. f_equal. apply IH. Qed.
Lemma place_spaces n : forall b, Forall (fun y => snd y = Space) (place b (repeat Space n)).
Proof. induction n as [|n IH]; intros b; cbn; constructor; auto. Qed.
Lemma place_first es b b0 e r : place b es = @cons placed (b0, e) r -> exists es', es = e :: es'.
Proof. destruct es as [|e' es]; cbn; intros E; [discriminate|]. injection E as _ -> _. eauto. Qed.

Theorem insert_spaces U a k text str num b n : sane U -> u_alphanumeric U 32%N = false ->
  valid_source (text_of (a ++ Tok k text str num :: b)) ->
  lexes U (text_of (a ++ Tok k text str num :: b)) (a ++ Tok k text str num :: b) ->
  spaceable k b ->
  same_result (scan_tokens U (text_of (a ++ Tok k text str num :: b)))
              (scan_tokens U (text_of (a ++ Tok k text str num :: repeat Space n ++ b))).
Proof.
  intros Sn SP V L OK. 
  assert (NE : text <> nil).
  { clear - L. assert (LX : exists r, lexeme U (Tok k text str num) r).
    { induction a as [|e a IH]; cbn in L; inversion L; subst; eauto.
      match goal with E : _ ++ _ = _ ++ _ |- _ => apply app_inv_head in E; subst end. auto. }
    destruct LX as (r & X). inversion X; subst; try discriminate; auto.
    destruct ds; discriminate. }
  set (x := Tok k text str num) in *.
  assert (V' : valid_source (text_of (a ++ x :: repeat Space n ++ b))).
  { rewrite text_of_app in *. cbn [text_of flat_map] in *. fold (text_of b) in *. fold (text_of (repeat Space n ++ b)).
    rewrite text_of_app, text_spaces.
    apply Forall_app in V. destruct V as [V1 V]. apply Forall_app in V. destruct V as [V2 V3].
    apply Forall_app. split; auto. apply Forall_app. split; auto. now apply valid_spaces. }
  pose proof (lexes_space U SP a k text str num b n NE L) as L'. fold x in L'.
  eapply scan_pair; eauto. unfold source_lines. rewrite !place_app. cbn [place]. rewrite place_app.
  destruct (split_before (place nil a) nil) as (pre & acc & PRE). rewrite !PRE.
  rewrite !layout_app. apply glue_alike; [apply layouts_alike_refl|]. intros t e s _.
  assert (X : forall bf r, split_lines acc (@cons placed (bf, x) r) = split_lines (acc ++ [(bf, x)]) r) by reflexivity.
  rewrite !X.
  set (sp := place _ (repeat Space n)).
  assert (SPC : Forall (fun y => snd y = Space) sp) by apply place_spaces.
  rewrite (split_spaces sp).
  2:{ eapply Forall_impl; [|exact SPC]. intros [? ?]. cbn. now intros ->. }
  set (bf := nil ++ text_of a) in *.
  set (qb := place (bf ++ elem_text x) b). set (qb' := place ((bf ++ elem_text x) ++ text_of (repeat Space n)) b).
  assert (LK : map look qb = map look qb') by (unfold qb, qb'; now rewrite !look_place).
  pose proof (split_alike qb qb' nil nil LK eq_refl) as AL.
  destruct (split_head qb) as (q & en & rest & EO & (tail & QB & TL) & H).
  destruct (split_head qb') as (q' & en' & rest' & _ & _ & H').
  rewrite H, H' in AL. inversion AL as [|? ? ? ? [A1 A2] AR]; subst.
  cbn [app body ending] in A1, A2.
  rewrite H, H', <- !app_assoc. cbn [app].
  apply layout_effect; auto.
  apply spaces_effect; auto.
  - destruct en, en'; try contradiction; auto. intros ->. destruct TL as (r & ->). cbn in QB.
    destruct (place_first _ _ _ _ _ QB) as (b' & ->). exact OK.
  - destruct q as [|[b1 []] q]; auto. destruct k0; auto. cbn in QB.
    destruct (place_first _ _ _ _ _ QB) as (b' & ->). exact OK.
Qed.
