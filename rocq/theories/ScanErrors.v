(** Lemmas on the errors of a scan, on single elements and on continued
    lines. *)
From Verif Require Import Base F64 Token Scanner SpecLex SpecLayout SpecScan
  StrFacts ScanLex ScanStep ScanCluster ScanLayout ScanUnique ScanProps.

(** ** Elements and lines *)
Ltac fix_cons := match goal with
  | |- context [split_lines _ (@cons _ ?x ?ps)] =>
    change (@cons (list string * elem) x ps) with (@cons placed x ps) end.
Lemma split_lines_elems ps : forall acc p, In p (acc ++ ps) ->
  (In p ps /\ is_line_end (snd p) = true) \/
  exists l, In l (split_lines acc ps) /\ In p (body l).
Proof.
  induction ps as [|[b e] ps IH]; intros acc p H.
  - right. exists (mkLine acc ByEof). cbn. rewrite app_nil_r in H. auto.
  - destruct (is_line_end e) eqn:LE.
    + assert (exists en, split_lines acc (@cons placed (b, e) ps)
                = mkLine acc en :: split_lines nil ps) as (en & SL)
        by (destruct e; try discriminate LE; eexists; reflexivity).
      apply in_app_or in H. destruct H as [H|[H|H]].
      * right. exists (mkLine acc en). fix_cons; rewrite SL. cbn. auto.
      * left. subst p. cbn. auto.
      * destruct (IH nil p H) as [[I1 I2]|(l & I1 & I2)].
        -- left. cbn. auto.
        -- right. exists l. fix_cons; rewrite SL. cbn. auto.
    + assert (SL : split_lines acc (@cons placed (b, e) ps)
                   = split_lines (acc ++ [(b, e)]) ps)
        by (destruct e; try discriminate LE; reflexivity).
      fix_cons; rewrite SL. destruct (IH (acc ++ [(b, e)]) p) as [[I1 I2]|X].
      * rewrite <- app_assoc. exact H.
      * left. cbn. auto.
      * right. exact X.
Qed.
Lemma place_in e es b : In e es -> exists b', In (b', e) (place b es).
Proof.
  revert b. induction es as [|x es IH]; intros b H; [contradiction|].
  destruct H as [->|H]; cbn.
  - eauto.
  - destruct (IH (b ++ elem_text x) H) as [b' I]. eauto.
Qed.
Lemma in_place p es : forall b, In p (place b es) ->
  exists a c, es = a ++ snd p :: c /\ fst p = b ++ text_of a.
Proof.
  induction es as [|x es IH]; intros b H; [contradiction|]. destruct H as [<-|H].
  - exists nil, es. cbn. rewrite app_nil_r. auto.
  - destruct (IH _ H) as (a & c & -> & E). exists (x :: a), c. cbn.
    rewrite E, app_assoc. auto.
Qed.
Lemma leading_content ps : leading ps ++ content ps = ps.
Proof.
  induction ps as [|[b e] ps IH]; cbn; [reflexivity|].
  destruct (is_blank e); cbn; congruence.
Qed.

(** ** Errors *)
Lemma elem_errors_illegal p : elem_errors p <> nil <-> is_illegal (snd p) = true.
Proof. destruct p as [b []]; cbn; split; congruence. Qed.
Lemma elems_errors_illegal ps :
  elems_errors ps <> nil <-> exists p, In p ps /\ is_illegal (snd p) = true.
Proof.
  induction ps as [|p ps IH]; cbn.
  - split; [congruence|]. intros (? & [] & _).
  - split.
    + intros H. destruct (elem_errors p) as [|c r] eqn:E.
      * cbn in H. apply IH in H. destruct H as (q & I & K). eauto.
      * exists p. split; [auto|]. apply elem_errors_illegal. congruence.
    + intros (q & [->|I] & K) H; apply app_eq_nil in H; destruct H as [H1 H2].
      * now apply elem_errors_illegal in K.
      * revert H2. apply IH. eauto.
Qed.
Lemma mismatch_below pre l : mismatch pre l <> nil <-> below_levels pre l.
Proof.
  unfold mismatch, below_levels, is_blank_line.
  destruct (content (body l)) as [|[b e] c].
  { split; [congruence|]. intros [H _]. congruence. }
  destruct (open_levels pre) as [|n r].
  { split; [congruence|]. intros (_ & H & _). congruence. }
  destruct (_ && _) eqn:B.
  - split; [|congruence]. intros _. apply andb_prop in B. destruct B as [B1 B2].
    apply N.ltb_lt in B1. rewrite forallb_forall in B2.
    repeat split; try congruence. intros m I. now apply N.ltb_lt, B2.
  - split; [congruence|]. intros (_ & _ & P & A). exfalso.
    apply N.ltb_lt in P. rewrite P in B. cbn [andb] in B.
    assert (forallb (fun n0 => indentation (body l) <? n0)%N (n :: r) = true); [|congruence].
    apply forallb_forall. intros m I. now apply N.ltb_lt, A.
Qed.
Lemma errors_of_app a : forall pre b,
  errors_of pre (a ++ b) = errors_of pre a ++ errors_of (pre ++ a) b.
Proof.
  induction a as [|l a IH]; intros pre b; cbn.
  - now rewrite app_nil_r.
  - rewrite IH, <- !app_assoc. reflexivity.
Qed.
Lemma errors_of_some ls : forall pre,
  errors_of pre ls <> nil <->
  exists a l b, ls = a ++ l :: b /\
    (below_levels (pre ++ a) l \/
     exists p, In p (body l) /\ is_illegal (snd p) = true).
Proof.
  intros pre. split.
  - revert pre. induction ls as [|l r IH]; intros pre H; cbn in H; [congruence|].
    destruct (errors_of (pre ++ [l]) r) as [|c cs] eqn:E.
    + exists nil, l, r. split; [reflexivity|]. rewrite app_nil_r.
      rewrite app_nil_r in H.
      destruct (mismatch pre l) eqn:M; [|left; apply mismatch_below; congruence].
      right. apply elems_errors_illegal. unfold elems_errors in *.
      rewrite <- (leading_content (body l)), flat_map_app. exact H.
    + destruct (IH (pre ++ [l])) as (a & l' & b & -> & K); [congruence|].
      exists (l :: a), l', b. rewrite <- app_assoc in K. auto.
  - intros (a & l & b & -> & K) H. rewrite errors_of_app in H.
    apply app_eq_nil in H. destruct H as [_ H]. cbn in H.
    apply app_eq_nil in H. destruct H as [H1 H].
    apply app_eq_nil in H. destruct H as [H2 H].
    apply app_eq_nil in H. destruct H as [H3 _].
    destruct K as [K|K].
    + now apply mismatch_below in K.
    + apply elems_errors_illegal in K. apply K. unfold elems_errors in *.
      now rewrite <- (leading_content (body l)), flat_map_app, H1, H3.
Qed.

Lemma illegal_line es e :
  In e es -> is_illegal e = true ->
  exists a l b, source_lines es = a ++ l :: b /\
    exists p, In p (body l) /\ is_illegal (snd p) = true.
Proof.
  intros I K. destruct (place_in e es nil I) as [b' J].
  destruct (split_lines_elems (place nil es) nil (b', e) J) as [[_ X]|(l & L1 & L2)].
  - cbn in X. destruct e; discriminate.
  - apply in_split in L1. destruct L1 as (x & y & E).
    exists x, l, y. split; [exact E|]. eauto.
Qed.
Lemma body_elem es l p : In l (source_lines es) -> In p (body l) ->
  exists a c, es = a ++ snd p :: c /\ fst p = text_of a.
Proof.
  intros I J. apply (in_place p es nil).
  apply (split_bodies (place nil es) nil (Forall_nil _) l I p J).
Qed.

Lemma errors_exist es :
  errors_of nil (source_lines es) <> nil <->
  (exists e, In e es /\ is_illegal e = true) \/ some_line below_levels es.
Proof.
  rewrite errors_of_some. split.
  - intros (a & l & b & E & [K|(p & I & K)]).
    + right. exists a, l, b. auto.
    + left. destruct (body_elem es l p) as (x & y & E' & _).
      * rewrite E. apply in_elt.
      * exact I.
      * exists (snd p). split; [|exact K]. rewrite E'. apply in_elt.
  - intros [(e & I & K)|(a & l & b & E & K)].
    + destruct (illegal_line es e I K) as (a & l & b & E & P).
      exists a, l, b. auto.
    + exists a, l, b. auto.
Qed.

(** Where the errors are. *)
Lemma error_origin es c :
  In c (errors_of nil (source_lines es)) ->
  (exists a e b, es = a ++ e :: b /\ In c (elem_errors (text_of a, e))) \/
  (exists pre l post before e r, source_lines es = pre ++ l :: post /\
     below_levels pre l /\ content (body l) = (before, e) :: r /\
     (exists a b, es = a ++ e :: b /\ before = text_of a) /\
     c = cause_new (next_column (position before))
           "Outdent does not match any previous indentation level").
Proof.
  assert (G : forall ls pre, In c (errors_of pre ls) ->
    exists a l b, ls = a ++ l :: b /\
      (In c (mismatch (pre ++ a) l) \/ exists p, In p (body l) /\ In c (elem_errors p))).
  { induction ls as [|l r IH]; intros pre H; cbn in H; [contradiction|].
    assert (B : forall part, (forall p, In p part -> In p (body l)) ->
        In c (elems_errors part) -> exists p, In p (body l) /\ In c (elem_errors p)).
    { intros part Hp I. apply in_flat_map in I. destruct I as (p & I1 & I2). eauto. }
    apply in_app_or in H. destruct H as [H|H].
    - exists nil, l, r. split; [reflexivity|]. right. apply (B (leading (body l))); [|exact H].
      intros p I. rewrite <- (leading_content (body l)). apply in_or_app. auto.
    - apply in_app_or in H. destruct H as [H|H].
      + exists nil, l, r. rewrite app_nil_r. auto.
      + apply in_app_or in H. destruct H as [H|H].
        * exists nil, l, r. split; [reflexivity|]. right.
          apply (B (content (body l))); [|exact H].
          intros p I. rewrite <- (leading_content (body l)). apply in_or_app. auto.
        * destruct (IH _ H) as (a & l' & b & -> & K). exists (l :: a), l', b.
          split; [reflexivity|]. rewrite <- app_assoc in K. exact K. }
  intros H. apply G in H. destruct H as (a & l & b & E & K).
  assert (IL : In l (source_lines es)) by (rewrite E; apply in_elt).
  destruct K as [K|(p & I & K)].
  - right. cbn [app] in K.
    assert (BL : below_levels a l) by (apply mismatch_below; destruct (mismatch a l); [contradiction|congruence]).
    unfold mismatch in K. destruct (content (body l)) as [|[before e] r] eqn:C; [contradiction|].
    exists a, l, b, before, e, r. split; [exact E|]. split; [exact BL|]. split; [exact C|].
    split.
    + destruct (body_elem es l (before, e) IL) as (x & y & E1 & E2).
      * rewrite <- (leading_content (body l)), C. apply in_elt.
      * eauto.
    + destruct (open_levels a); [contradiction|]. destruct (_ && _); [|contradiction].
      destruct K as [<-|[]]. reflexivity.
  - left. destruct (body_elem es l p IL I) as (x & y & E1 & E2).
    exists x, (snd p), y. split; [exact E1|]. rewrite <- E2. now destruct p.
Qed.

(** ** Kinds of lexemes *)
Lemma word_lexeme U k text str num rest :
  lexeme U (Tok k text str num) rest -> is_word_kind k = true ->
  str = None /\ num = None /\
  exists g cs, text = g :: cs /\ starts_word U g /\ Forall (continues_word U) cs /\
    next_not (continues_word U) rest /\ word_kind (sconcat text) k.
Proof.
  intros H K. inversion H; subst; try discriminate.
  - match goal with I : In _ punctuation |- _ => cbn in I;
      repeat destruct I as [I|I]; try contradiction; injection I; intros; subst; discriminate end.
  - match goal with I : In _ eq_operators |- _ => cbn in I;
      repeat destruct I as [I|I]; try contradiction; injection I; intros; subst; discriminate end.
  - match goal with I : In _ eq_operators |- _ => cbn in I;
      repeat destruct I as [I|I]; try contradiction; injection I; intros; subst; discriminate end.
  - eauto 10.
Qed.
Lemma word_kind_word w k : word_kind w k -> is_word_kind k = true.
Proof.
  intros [? ? I|? I]; [|reflexivity]. cbn in I.
  repeat destruct I as [I|I]; try contradiction; injection I; intros; subst; reflexivity.
Qed.
Ltac not_word := match goal with
  | W : word_kind _ _ |- _ => apply word_kind_word in W; discriminate W end.
Ltac by_table := match goal with I : In _ _ |- _ => cbn in I;
  repeat destruct I as [I|I]; try contradiction; injection I; intros; subst;
  try discriminate; auto end.

Lemma number_lexeme U text str num rest :
  lexeme U (Tok Number text str num) rest ->
  exists ds x, str = None /\ num = Some x /\ parse_f64 (sconcat text) = Some x /\
    ds <> nil /\ Forall digit_cluster ds /\ next_not digit_cluster rest /\
    ((text = ds /\ ~ exists d r, rest = "." :: d :: r /\ digit_cluster d) \/
     exists fs, fs <> nil /\ Forall digit_cluster fs /\ text = ds ++ "." :: fs).
Proof.
  intros H. inversion H; subst; try not_word; try by_table.
  - exists text, x. split; [reflexivity|]. split; [reflexivity|]. auto 7.
  - exists ds, x. split; [reflexivity|]. split; [reflexivity|].
    split; [assumption|]. repeat (split; [assumption|]). right. exists fs. auto.
Qed.
Lemma string_lexeme U text str num rest :
  lexeme U (Tok TString text str num) rest ->
  num = None /\ exists body, text = s_quote :: body ++ [s_quote] /\
    Forall (fun g => g <> s_quote) body /\ str = Some (sconcat body).
Proof.
  intros H. inversion H; subst; try not_word; try by_table.
  split; [reflexivity|]. eauto.
Qed.
Lemma open_lexeme U k text str num rest :
  lexeme U (Tok k text str num) rest ->
  match k with
  | Bang => text = ["!"] /\ next_not (eq "=") rest
  | Equal => text = ["="] /\ next_not (eq "=") rest
  | Less => text = ["<"] /\ next_not (eq "=") rest
  | Greater => text = [">"] /\ next_not (eq "=") rest
  | Slash => text = ["/"] /\ next_not (eq "/") rest
  | BangEqual => text = ["!"; "="]
  | EqualEqual => text = ["="; "="]
  | LessEqual => text = ["<"; "="]
  | GreaterEqual => text = [">"; "="]
  | _ => True
  end.
Proof.
  intros H. inversion H; subst; auto; try by_table.
  destruct k; auto; not_word.
Qed.
Lemma paren_lexeme U text str num rest :
  lexeme U (Tok LeftParen text str num) rest -> text = ["("] /\ str = None /\ num = None.
Proof. intros H. inversion H; subst; try not_word; by_table. Qed.

(** The element at the front of a text is determined by the text. *)
Lemma lexes_front U e rest e' es' gs' :
  lexeme U e rest -> lexes U gs' (e' :: es') -> gs' = elem_text e ++ rest -> e' = e.
Proof.
  intros L1 L2 E. destruct (lexes_total U rest) as [es L3].
  pose proof (LexCons U e rest es L1 L3) as L4. rewrite <- E in L4.
  pose proof (lexes_unique U _ _ L4 _ L2). congruence.
Qed.
Lemma longest_operator U gs a c g k1 k2 rest :
  lexes U gs (a ++ c) -> gs = text_of a ++ g :: "=" :: rest ->
  In (g, k1, k2) eq_operators -> exists c', c = Tok k2 [g; "="] None None :: c'.
Proof.
  intros L E I. destruct (lexes_app_inv U a gs c L) as (gs' & E' & L').
  rewrite E' in E. apply app_inv_head in E. subst gs'.
  destruct c as [|e c]; [inversion L'|].
  pose proof (lexes_front U _ rest e c _ (LOpEq U g k1 k2 rest I) L' eq_refl).
  subst. eauto.
Qed.
Lemma comment_start U gs a c rest :
  lexes U gs (a ++ c) -> gs = text_of a ++ "/" :: "/" :: rest ->
  exists body c', c = Comment ("/" :: "/" :: body) :: c' /\
    Forall (fun g => g <> s_nl) body /\ exists r, rest = body ++ r /\ next_not (fun g => g <> s_nl) r.
Proof.
  intros L E. destruct (lexes_app_inv U a gs c L) as (gs' & E' & L').
  rewrite E' in E. apply app_inv_head in E. subst gs'.
  destruct c as [|e c]; [inversion L'|].
  assert (X : exists body r, rest = body ++ r /\ Forall (fun g => g <> s_nl) body /\
                             next_not (fun g => g <> s_nl) r).
  { clear. induction rest as [|g r IH].
    - exists nil, nil. cbn. auto.
    - destruct (String.string_dec g s_nl) as [->|N].
      + exists nil, (s_nl :: r). repeat split; [constructor|].
        intros X. now apply X.
      + destruct IH as (b & r' & -> & F & T). exists (g :: b), r'. cbn. auto. }
  destruct X as (body & r & -> & F & T).
  pose proof (lexes_front U _ r e c _ (LComment U body r F T) L' eq_refl). subst e.
  exists body, c. eauto 6.
Qed.

(** ** Continued lines *)
Lemma tokens_of_app a : forall pre b,
  tokens_of pre (a ++ b) = tokens_of pre a ++ tokens_of (pre ++ a) b.
Proof.
  induction a as [|l a IH]; intros pre b; cbn.
  - now rewrite app_nil_r.
  - rewrite IH, <- !app_assoc. reflexivity.
Qed.
Lemma blank_body_tokens l prev :
  is_blank_line l -> elems_tokens prev (body l) = nil.
Proof.
  unfold is_blank_line. generalize (body l) as ps. intros ps. revert prev.
  induction ps as [|[b e] ps IH]; intros prev; cbn; [reflexivity|].
  destruct (is_blank e) eqn:B; [|discriminate]. intros H.
  rewrite IH by exact H. destruct e; try discriminate; reflexivity.
Qed.
Lemma blank_line_tokens pre l :
  is_blank_line l -> tokens_of pre [l] = nil.
Proof.
  intros H. cbn. rewrite blank_body_tokens by exact H.
  unfold is_blank_line in H. unfold opening, terminator. rewrite H.
  destruct (ending l); reflexivity.
Qed.
Lemma blank_lines_tokens ls : forall pre,
  Forall is_blank_line ls -> tokens_of pre ls = nil.
Proof.
  induction ls as [|l r IH]; intros pre H; [reflexivity|]. inversion H; subst.
  change (l :: r) with ([l] ++ r). rewrite tokens_of_app, blank_line_tokens, IH; auto.
Qed.
Lemma joined_snoc pre l : is_joined (pre ++ [l]) = joins_next (is_joined pre) l.
Proof. unfold is_joined at 1. rewrite walk_snoc. reflexivity. Qed.
Lemma continued_joins pre l : continued l -> is_joined (pre ++ [l]) = true.
Proof.
  intros C. rewrite joined_snoc. unfold continued in C. unfold joins_next.
  destruct (ending l); [|reflexivity|contradiction].
  destruct (content (body l)) as [|x c] eqn:E; [|exact C].
  exfalso. unfold continuing in C.
  rewrite <- (leading_content (body l)), E, app_nil_r in C.
  assert (B : @Forall placed (fun p => is_blank (snd p) = true) (leading (body l))).
  { clear. induction (body l) as [|[b e] r IH]; cbn; [constructor|].
    destruct (is_blank e) eqn:B; constructor; auto. }
  apply Forall_rev in B. destruct (rev (leading (body l))) as [|[b e] r]; [discriminate|].
  apply Forall_inv in B. destruct e; cbn in *; discriminate.
Qed.
Lemma blanks_keep_joined bl : forall pre,
  is_joined pre = true -> Forall is_blank_line bl -> is_joined (pre ++ bl) = true.
Proof.
  induction bl as [|l r IH]; intros pre J F.
  - now rewrite app_nil_r.
  - inversion F; subst. rewrite snoc_app. apply IH; [|assumption].
    rewrite joined_snoc. unfold is_blank_line in *. unfold joins_next.
    destruct (ending l); try reflexivity; now rewrite H1.
Qed.

Lemma continued_adjacent pre l bl l' post toks :
  toks = tokens_of nil (pre ++ l :: bl ++ l' :: post) ->
  continued l -> Forall is_blank_line bl -> ~ is_blank_line l' ->
  exists A outs B,
    toks = A ++ elems_tokens (before_next pre) (body l) ++ outs
             ++ elems_tokens (before_next (pre ++ l :: bl)) (body l') ++ B /\
    Forall (fun t => t_type t = Outdent) outs /\
    ((hd 0%N (open_levels (pre ++ l :: bl)) <= indentation (body l'))%N -> outs = nil).
Proof.
  intros -> C F NB. rewrite tokens_of_app. cbn [app].
  change (l :: bl ++ l' :: post) with ([l] ++ bl ++ l' :: post).
  rewrite !tokens_of_app, (blank_lines_tokens bl) by exact F. cbn [app tokens_of].
  assert (T : terminator l = nil).
  { unfold terminator. unfold continued in C. destruct (ending l); auto.
    rewrite C. destruct (content (body l)); reflexivity. }
  rewrite T. rewrite !app_nil_r, <- !app_assoc.
  replace ((pre ++ [l]) ++ bl) with (pre ++ l :: bl) by now rewrite <- app_assoc.
  assert (J : is_joined (pre ++ l :: bl) = true).
  { rewrite snoc_app. apply blanks_keep_joined; [|assumption].
    now apply continued_joins. }
  exists (tokens_of nil pre ++ opening pre l), (opening (pre ++ l :: bl) l').
  eexists. split; [rewrite <- !app_assoc; reflexivity|].
  unfold opening. rewrite J. destruct (content (body l')) as [|[b e] r]; [split; auto|].
  destruct (N.ltb_spec (hd 0%N (open_levels (pre ++ l :: bl))) (indentation (body l'))).
  - auto.
  - split.
    + apply Forall_forall. intros t I. apply repeat_spec in I. now subst.
    + intros LE. rewrite filter_gt_nil; [reflexivity|]. intros n I.
      pose proof (levels_hd_max _ n (open_levels_levels (pre ++ l :: bl)) I). lia.
Qed.
