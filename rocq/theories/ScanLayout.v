(** The element machine computes the line layout of [SpecLayout]. *)
From Verif Require Import Base F64 Token Scanner SpecLex SpecLayout StrFacts ScanLex
  ScanStep ScanCluster.
From Coq Require Import Sorted.

Fixpoint mrun (m : mst) (ps : list placed) : option mst :=
  match ps with
  | nil => Some m
  | p :: r => match mstep m p with
              | None => None
              | Some m' => mrun m' r
              end
  end.

(** ** The stack of open levels is strictly descending *)
Definition levels (stack : list N) : Prop :=
  StronglySorted (fun a b => (b < a)%N) stack /\ Forall (fun n => (0 < n)%N) stack.

Lemma levels_nil : levels nil.
Proof. split; constructor. Qed.
Lemma levels_push stack w :
  levels stack -> (hd 0%N stack < w)%N -> levels (w :: stack).
Proof.
  intros [S P] H. split.
  - constructor; [assumption|]. destruct stack as [|n r]; [constructor|].
    cbn in H. inversion S as [|? ? S' F]; subst. constructor; [assumption|].
    eapply Forall_impl; [|exact F]. cbn. intros. lia.
  - constructor; [|assumption]. destruct stack; cbn in H; lia.
Qed.
Lemma levels_filter p stack : levels stack -> levels (filter p stack).
Proof.
  intros [S P]. split.
  - clear P. induction S as [|n r S IH F]; cbn; [constructor|].
    destruct (p n); [|assumption]. constructor; [assumption|].
    clear -F. induction F; cbn; [constructor|].
    destruct (p x); [constructor|]; assumption.
  - clear S. induction P; cbn; [constructor|].
    destruct (p x); [constructor|]; assumption.
Qed.

Lemma filter_le_all w stack :
  Forall (fun n => (n < w)%N) stack ->
  filter (fun n => w <? n)%N stack = nil /\
  filter (fun n => n <=? w)%N stack = stack.
Proof.
  induction 1 as [|n r H F [IH1 IH2]]; cbn; [auto|].
  destruct (N.ltb_spec w n); [lia|]. destruct (N.leb_spec n w); [|lia].
  split; congruence.
Qed.

Lemma pop_levels_filter stack w :
  levels stack ->
  pop_levels stack w =
  let closed := filter (fun n => w <? n)%N stack in
  let still := filter (fun n => n <=? w)%N stack in
  match still with
  | n :: _ => if (n =? w)%N then Some (List.length closed, still, true) else None
  | nil => Some (List.length closed, nil, false)
  end.
Proof.
  intros [S _]. cbv zeta. induction S as [|n r S IH F]; cbn; [reflexivity|].
  destruct (N.compare_spec n w) as [->|L|G].
  - destruct (filter_le_all w r F) as [E1 E2].
    rewrite N.ltb_irrefl, N.leb_refl, E1, E2, N.eqb_refl. reflexivity.
  - destruct (N.leb_spec n w); [|lia].
    destruct (N.eqb_spec n w); [lia|]. reflexivity.
  - destruct (N.ltb_spec w n); [|lia]. destruct (N.leb_spec n w); [lia|].
    rewrite IH. destruct (filter (fun n0 : N => (n0 <=? w)%N) r); [reflexivity|].
    destruct (n0 =? w)%N; reflexivity.
Qed.

(** [mopen] at the beginning of a line is [open_line]. *)
Lemma mopen_open_line m p :
  levels (m_stack m) -> m_bol m = true ->
  mopen m p =
  match open_line (m_stack m) (m_cont m) (m_width m) p with
  | None => None
  | Some (opening, mismatch, st) =>
    Some (mkM (m_toks m ++ opening) (m_errs m ++ mismatch) st (m_width m) false
              (m_only m) (m_cont m) (m_follow m) (m_abut m))
  end.
Proof.
  intros Lv B. unfold mopen, open_line. rewrite B. cbn [negb].
  destruct p as [b e].
  destruct (N.compare_spec (m_width m) (hd 0%N (m_stack m))) as [E|L|G].
  - rewrite E, N.eqb_refl, !app_nil_r. reflexivity.
  - destruct (N.eqb_spec (m_width m) (hd 0%N (m_stack m))); [lia|].
    destruct (N.ltb_spec (hd 0%N (m_stack m)) (m_width m)); [lia|].
    rewrite pop_levels_filter by assumption. cbv zeta.
    destruct (filter (fun n0 => n0 <=? m_width m)%N (m_stack m)) as [|k r].
    + cbn [negb andb]. destruct (N.eqb_spec (m_width m) 0).
      * destruct (N.ltb_spec 0 (m_width m)); [lia|]. now rewrite app_nil_r.
      * destruct (N.ltb_spec 0 (m_width m)); [|lia]. reflexivity.
    + destruct (k =? m_width m)%N; [|reflexivity].
      cbn [negb andb]. now rewrite app_nil_r.
  - destruct (N.eqb_spec (m_width m) (hd 0%N (m_stack m))); [lia|].
    destruct (N.ltb_spec (hd 0%N (m_stack m)) (m_width m)); [|lia].
    destruct (m_cont m); rewrite ?app_nil_r; reflexivity.
Qed.

Lemma open_line_levels stack joined w p opening mismatch st :
  levels stack -> open_line stack joined w p = Some (opening, mismatch, st) ->
  levels st.
Proof.
  intros Lv. unfold open_line. destruct p as [b e].
  destruct (N.eqb_spec w (hd 0%N stack)); [now intros [= <- <- <-]|].
  destruct (N.ltb_spec (hd 0%N stack) w).
  - destruct joined; intros [= <- <- <-]; [assumption|].
    now apply levels_push.
  - pose proof (levels_filter (fun n => n <=? w)%N stack Lv) as F.
    destruct (filter (fun n0 => n0 <=? w)%N stack).
    + intros [= <- <- <-]. exact F.
    + destruct (_ =? w)%N; [|discriminate]. intros [= <- <- <-]. exact F.
Qed.

(** ** Bits of lists of placed elements *)
Definition blanks (l : list placed) : Prop := Forall (fun p => is_blank (snd p) = true) l.

Lemma content_nil l : content l = nil -> blanks l /\ leading l = l.
Proof.
  induction l as [|[b e] r IH]; cbn; [split; [constructor|reflexivity]|].
  destruct (is_blank e) eqn:E; [|discriminate]. intros H.
  destruct (IH H) as [A B]. split; [now constructor|now rewrite B].
Qed.
Lemma blanks_app l x :
  blanks l -> content (l ++ x) = content x /\ leading (l ++ x) = l ++ leading x.
Proof.
  induction 1 as [|[b e] l H F [IH1 IH2]]; cbn; [auto|].
  cbn in H. rewrite H, IH1, IH2. auto.
Qed.
Lemma content_app l x p c :
  content l = p :: c -> content (l ++ x) = p :: c ++ x /\ leading (l ++ x) = leading l.
Proof.
  induction l as [|[b e] r IH]; cbn; [discriminate|].
  destruct (is_blank e) eqn:E.
  - intros H. destruct (IH H) as [A B]. split; [exact A|now rewrite B].
  - intros [= <- <-]. auto.
Qed.
Lemma lead_content l : l = leading l ++ content l.
Proof.
  induction l as [|[b e] r IH]; cbn; [reflexivity|].
  destruct (is_blank e); cbn; congruence.
Qed.
Lemma leading_blanks l : blanks (leading l).
Proof.
  induction l as [|[b e] r IH]; cbn; [constructor|].
  destruct (is_blank e) eqn:E; constructor; assumption.
Qed.

(** The predecessor of the next element. *)
Definition last_of (prev : option elem) (l : list placed) : option elem :=
  match rev l with nil => prev | (_, e) :: _ => Some e end.
Lemma last_of_snoc prev l b e : last_of prev (l ++ [(b, e)]) = Some e.
Proof. unfold last_of. now rewrite rev_app_distr. Qed.
Lemma last_of_cons prev p l : last_of prev (p :: l) = last_of (Some (snd p)) l.
Proof.
  unfold last_of. cbn. destruct (rev l) as [|[b e] r]; cbn; [|reflexivity].
  destruct p; reflexivity.
Qed.
Lemma continuing_snoc l b e :
  continuing (l ++ [(b, e)]) =
  match e with Tok k _ _ _ => continuing_kind k | _ => false end.
Proof. unfold continuing. rewrite rev_app_distr. reflexivity. Qed.

Lemma elems_tokens_app prev l x :
  elems_tokens prev (l ++ x) = elems_tokens prev l ++ elems_tokens (last_of prev l) x.
Proof.
  revert prev. induction l as [|p l IH]; intros prev; cbn; [reflexivity|].
  rewrite IH, app_assoc, last_of_cons. reflexivity.
Qed.
Lemma elems_tokens_blanks prev l : blanks l -> elems_tokens prev l = nil.
Proof.
  intros B. revert prev. induction B as [|[b e] l H F IH]; intros prev; cbn; [auto|].
  rewrite IH. destruct e; cbn in *; congruence.
Qed.
Lemma elems_errors_app a b : elems_errors (a ++ b) = elems_errors a ++ elems_errors b.
Proof. apply flat_map_app. Qed.

(** ** The state of the machine within a line *)
Definition line_state (stack : list N) (joined : bool) (prev : option elem)
           (toks : list token) (errs : list cause)
           (acc : list placed) (m : mst) : Prop :=
  match content acc with
  | nil =>
    m = mkM toks (errs ++ elems_errors acc) stack (indentation acc) true false
            joined false (abuts (last_of prev acc))
  | first :: c =>
    exists opening mismatch st,
      open_line stack joined (indentation acc) first = Some (opening, mismatch, st) /\
      m = mkM (toks ++ opening ++ elems_tokens prev acc)
              (errs ++ elems_errors (leading acc) ++ mismatch
                 ++ elems_errors (first :: c))
              st (indentation acc) false (is_comment_line (first :: c)) joined
              (continuing acc) (abuts (last_of prev acc))
  end.

(** A comment only stands directly before a newline or the end. *)
Definition comment_ends (e : elem) (ps : list placed) : Prop :=
  match e with
  | Comment _ => match ps with nil => True | (_, e') :: _ => e' = Newline end
  | _ => True
  end.
Fixpoint comments_end (ps : list placed) : Prop :=
  match ps with
  | nil => True
  | (_, e) :: r => comment_ends e r /\ comments_end r
  end.
Definition is_line_end (e : elem) : bool :=
  match e with Newline | Continuation _ => true | _ => false end.

Definition one_line (l : list placed) : Prop :=
  Forall (fun p => is_line_end (snd p) = false) l.
Lemma comments_end_app a x : comments_end (a ++ x) -> comments_end x.
Proof. induction a as [|[b e] a IH]; cbn; tauto. Qed.

Lemma indentation_space acc b :
  blanks acc ->
  indentation (acc ++ [(b, Space)]) = sat_succ16 (indentation acc).
Proof.
  intros B. unfold indentation.
  destruct (blanks_app acc [(b, Space)] B) as [_ ->].
  pose proof (blanks_app acc nil B) as [_ E]. rewrite app_nil_r in E.
  cbn in E. rewrite app_nil_r in E. rewrite E.
  rewrite filter_app, app_length. cbn. unfold sat_succ16, u16_max. lia.
Qed.
Lemma indentation_other acc b e :
  blanks acc -> is_space (b, e) = false ->
  indentation (acc ++ [(b, e)]) = indentation acc.
Proof.
  intros B H. unfold indentation.
  destruct (blanks_app acc [(b, e)] B) as [_ ->].
  pose proof (blanks_app acc nil B) as [_ E]. rewrite app_nil_r in E.
  cbn in E. rewrite app_nil_r in E. rewrite E.
  rewrite filter_app, app_length. cbn.
  destruct (is_blank e); cbn; rewrite ?H; cbn; rewrite ?Nat.add_0_r; reflexivity.
Qed.
Lemma indentation_content acc x p c :
  content acc = p :: c -> indentation (acc ++ x) = indentation acc.
Proof.
  intros H. unfold indentation. now destruct (content_app acc x p c H) as [_ ->].
Qed.

Lemma line_step stack joined prev toks errs acc m b e r :
  levels stack ->
  line_state stack joined prev toks errs acc m -> is_line_end e = false ->
  one_line acc -> comments_end (acc ++ (b, e) :: r) ->
  match mstep m (b, e) with
  | Some m' => line_state stack joined prev toks errs (acc ++ [(b, e)]) m'
  | None => content acc = nil /\ is_blank e = false /\
            open_line stack joined (indentation acc) (b, e) = None
  end.
Proof.
  intros Lv LS NE OL CE. unfold line_state in LS.
  destruct (content acc) as [|first c] eqn:Ec.
  - destruct (content_nil _ Ec) as [B LE].
    destruct (is_blank e) eqn:Be.
    + (* a further leading element *)
      assert (Ec' : content (acc ++ [(b, e)]) = nil).
      { destruct (blanks_app acc [(b, e)] B) as [-> _]. cbn. now rewrite Be. }
      assert (EE : elems_errors (acc ++ [(b, e)]) = elems_errors acc ++ elem_errors (b, e)).
      { rewrite elems_errors_app. cbn. now rewrite app_nil_r. }
      destruct e; try discriminate Be; cbn [mstep snd fst]; subst m;
        unfold line_state; rewrite Ec', EE, last_of_snoc;
        unfold mset, mspace, merr; cbn.
      * rewrite app_nil_r, indentation_space by assumption. reflexivity.
      * rewrite app_nil_r, indentation_other by (assumption || reflexivity).
        reflexivity.
      * rewrite app_assoc, indentation_other by (assumption || reflexivity).
        reflexivity.
      * rewrite app_assoc, indentation_other by (assumption || reflexivity).
        reflexivity.
    + (* the first significant element *)
      assert (Ec' : content (acc ++ [(b, e)]) = [(b, e)]).
      { destruct (blanks_app acc [(b, e)] B) as [-> _]. cbn. now rewrite Be. }
      assert (EL : leading (acc ++ [(b, e)]) = acc).
      { destruct (blanks_app acc [(b, e)] B) as [_ ->]. cbn. rewrite Be.
        apply app_nil_r. }
      assert (EI : indentation (acc ++ [(b, e)]) = indentation acc).
      { apply indentation_other; [assumption|]. destruct e; try reflexivity.
        discriminate Be. }
      assert (ET : elems_tokens prev (acc ++ [(b, e)])
                   = elem_tokens (last_of prev acc) (b, e)).
      { rewrite elems_tokens_app, elems_tokens_blanks by assumption. cbn.
        apply app_nil_r. }
      assert (MO : mopen m (b, e) =
        match open_line stack joined (indentation acc) (b, e) with
        | None => None
        | Some (opening, mismatch, st) =>
          Some (mkM (toks ++ opening) ((errs ++ elems_errors acc) ++ mismatch) st
                    (indentation acc) false false joined false
                    (abuts (last_of prev acc)))
        end).
      { subst m. rewrite mopen_open_line by (assumption || reflexivity).
        reflexivity. }
      unfold line_state. rewrite Ec', EL, EI, ET, last_of_snoc, continuing_snoc.
      assert (Abut : m_abut m = abuts (last_of prev acc)) by (subst m; reflexivity).
      assert (Bol : m_bol m = true) by (subst m; reflexivity).
      destruct e; try discriminate Be; try discriminate NE;
        cbn [mstep snd fst]; rewrite MO;
        destruct (open_line stack joined (indentation acc) _)
          as [[[opening mismatch] st]|] eqn:EO;
        try (split; [reflexivity|split; reflexivity]);
        (exists opening, mismatch, st; split; [reflexivity|]);
        rewrite ?Abut, ?Bol; unfold mset, mtok, merr, monly; cbn;
        rewrite ?app_nil_r, <- ?app_assoc; reflexivity.
  - (* later on the line *)
    destruct LS as (opening & mismatch & st & EO & ->).
    destruct (content_app acc [(b, e)] first c Ec) as [Ec' EL].
    assert (EI := indentation_content acc [(b, e)] first c Ec).
    assert (ET : elems_tokens prev (acc ++ [(b, e)])
                 = elems_tokens prev acc ++ elem_tokens (last_of prev acc) (b, e)).
    { rewrite elems_tokens_app. cbn. now rewrite app_nil_r. }
    assert (EE : elems_errors (first :: c ++ [(b, e)])
                 = elems_errors (first :: c) ++ elem_errors (b, e)).
    { change (first :: c ++ [(b, e)]) with ((first :: c) ++ [(b, e)]).
      rewrite elems_errors_app. cbn. now rewrite app_nil_r. }
    assert (IC : is_comment_line (first :: c ++ [(b, e)])
                 = is_comment_line (first :: c)) by reflexivity.
    assert (NC : match e with Comment _ => is_comment_line (first :: c) = false
                 | _ => True end).
    { destruct e; try exact I. cbn. destruct first as [b0 e0].
      destruct e0; try reflexivity. exfalso.
      assert (X : acc = leading acc ++ (b0, Comment text0) :: c).
      { pose proof (lead_content acc) as X. rewrite Ec in X. exact X. }
      unfold one_line in OL. rewrite X in CE, OL.
      apply Forall_app in OL. destruct OL as [_ OL].
      rewrite <- app_assoc in CE. apply comments_end_app in CE. cbn in CE.
      destruct CE as [CE _]. destruct c as [|[b1 e1] c]; cbn in CE; [discriminate|].
      subst e1. inversion OL as [|? ? _ OL']; subst. inversion OL'; subst.
      discriminate. }
    unfold line_state. rewrite Ec', EL, EI, ET, EE, IC, last_of_snoc, continuing_snoc.
    destruct e; try discriminate NE; cbn [mstep snd fst mopen m_bol negb];
      (exists opening, mismatch, st; split; [exact EO|]);
      unfold mset, mtok, merr, monly, mspace; cbn [m_toks m_errs m_stack m_width
        m_bol m_only m_cont m_follow m_abut];
      try rewrite NC; cbn [abuts is_whitespace negb elem_tokens elem_errors];
      rewrite ?app_nil_r, <- ?app_assoc; reflexivity.
Qed.

(** ** Whole runs *)
Lemma split_lines_head acc ps :
  exists x en r, split_lines acc ps = mkLine (acc ++ x) en :: r.
Proof.
  revert acc. induction ps as [|[b e] ps IH]; intros acc; cbn.
  - exists nil, ByEof, nil. now rewrite app_nil_r.
  - destruct e;
      match goal with
      | |- context [split_lines (acc ++ ?y) ps] =>
        destruct (IH (acc ++ y)) as (x & en & r & ->);
        rewrite <- app_assoc; do 3 eexists; reflexivity
      | _ => exists nil; rewrite app_nil_r; do 2 eexists; reflexivity
      end.
Qed.

Definition ran (o : option mst) (toks : list token) (errs : list cause)
           (l : option (list token * list cause * list N)) : Prop :=
  match l with
  | None => o = None
  | Some (ts, es, st) =>
    exists m, o = Some m /\ m_toks m = toks ++ ts /\ m_errs m = errs ++ es /\
              m_stack m = st
  end.

Theorem mrun_layout ps : forall stack joined prev toks errs acc m,
  levels stack -> line_state stack joined prev toks errs acc m ->
  one_line acc -> comments_end (acc ++ ps) ->
  ran (mrun m ps) toks errs (layout stack joined prev (split_lines acc ps)).
Proof.
  induction ps as [|[b e] ps IH]; intros stack joined prev toks errs acc m Lv LS OL CE.
  - cbn. unfold line_state in LS. destruct (content acc) as [|first c] eqn:Ec.
    + destruct (content_nil _ Ec) as [B LE]. cbn. exists m. split; [reflexivity|].
      subst m. cbn. rewrite elems_tokens_blanks, LE, !app_nil_r by assumption. auto.
    + destruct LS as (opening & mismatch & st & EO & ->). rewrite EO. cbn.
      eexists. split; [reflexivity|]. cbn. rewrite !app_nil_r. auto.
  - destruct (is_line_end e) eqn:LE.
    + (* the line ends *)
      assert (exists stack' toks' errs' m' en,
        split_lines acc (@cons placed (b, e) ps) = mkLine acc en :: split_lines nil ps /\
        last_elem (mkLine acc en) = Some e /\
        mstep m (b, e) = Some m' /\ levels stack' /\
        match content acc with
        | nil => Some (nil, nil, stack)
        | first :: _ => open_line stack joined (indentation acc) first
        end = Some (toks', errs', stack') /\
        line_state stack' (joins_next joined (mkLine acc en)) (Some e)
          (toks ++ toks' ++ elems_tokens prev acc ++ terminator (mkLine acc en))
          (errs ++ elems_errors (leading acc) ++ errs' ++ elems_errors (content acc))
          nil m') as (stack' & toks' & errs' & m' & en & SL & La & MS & Lv' & OP & LS').
      { unfold line_state in LS. destruct (content acc) as [|first c] eqn:Ec.
        - destruct (content_nil _ Ec) as [B Le]. subst m.
          destruct e; try discriminate LE.
          + exists stack, nil, nil. eexists. exists (ByNewline b).
            split; [reflexivity|]. split; [reflexivity|]. split; [reflexivity|].
            split; [exact Lv|]. split; [reflexivity|].
            unfold line_state, joins_next, terminator. cbn [content ending body].
            rewrite Ec, Le, elems_tokens_blanks by assumption. cbn.
            unfold mset, mreset, mtok. cbn. rewrite !app_nil_r. reflexivity.
          + exists stack, nil, nil. eexists. exists (ByContinuation (Continuation text)).
            split; [reflexivity|]. split; [reflexivity|]. split; [reflexivity|].
            split; [exact Lv|]. split; [reflexivity|].
            unfold line_state, joins_next, terminator. cbn [content ending body].
            rewrite Le, elems_tokens_blanks by assumption. cbn.
            unfold mset, mreset, mtok, mcont. cbn. rewrite !app_nil_r. reflexivity.
        - destruct LS as (opening & mismatch & st & EO & ->).
          pose proof (open_line_levels _ _ _ _ _ _ _ Lv EO) as Lv'.
          destruct e; try discriminate LE.
          + exists st, opening, mismatch. eexists. exists (ByNewline b).
            split; [reflexivity|]. split; [reflexivity|]. split; [reflexivity|].
            split; [exact Lv'|]. split; [exact EO|].
            unfold line_state, joins_next, terminator. cbn [content ending body].
            rewrite Ec. unfold mset, mreset, mtok. cbn [m_toks m_errs m_stack
              m_width m_bol m_only m_cont m_follow m_abut negb fst andb].
            cbn [last_of rev abuts is_whitespace negb].
            change (indentation nil) with 0%N. rewrite <- !app_assoc.
            change (elems_errors nil) with (@nil cause). rewrite !app_nil_r.
            destruct (continuing acc), (is_comment_line (first :: c)); reflexivity.
          + exists st, opening, mismatch. eexists. exists (ByContinuation (Continuation text)).
            split; [reflexivity|]. split; [reflexivity|]. split; [reflexivity|].
            split; [exact Lv'|]. split; [exact EO|].
            unfold line_state, joins_next, terminator. cbn [content ending body].
            unfold mset, mreset, mtok, mcont. cbn [m_toks m_errs m_stack
              m_width m_bol m_only m_cont m_follow m_abut negb fst andb].
            cbn [last_of rev abuts is_whitespace negb].
            change (indentation nil) with 0%N. rewrite <- !app_assoc.
            change (elems_errors nil) with (@nil cause). rewrite !app_nil_r.
            reflexivity. }
      rewrite SL. cbn [layout body]. rewrite OP. cbn [mrun]. rewrite MS, La.
      assert (CE' : comments_end (nil ++ ps)).
      { apply comments_end_app in CE. cbn in CE. apply CE. }
      specialize (IH _ _ _ _ _ nil _ Lv' LS' (Forall_nil _) CE').
      unfold ran in *.
      destruct (layout stack' _ _ (split_lines nil ps)) as [[[ts es] fin]|]; [|exact IH].
      destruct IH as (mf & E1 & E2 & E3 & E4). exists mf. split; [exact E1|].
      rewrite E2, E3, <- !app_assoc. auto.
    + (* the line goes on *)
      pose proof (line_step stack joined prev toks errs acc m b e ps Lv LS LE OL CE) as ST.
      assert (SL : split_lines acc (@cons placed (b, e) ps) = split_lines (acc ++ [(b, e)]) ps)
        by (destruct e; try discriminate LE; reflexivity).
      rewrite SL. cbn [mrun].
      destruct (mstep m (b, e)) as [m'|].
      * apply IH; auto.
        -- apply Forall_app. split; [exact OL|]. constructor; [exact LE|constructor].
        -- now rewrite <- app_assoc.
      * destruct ST as (Ec & Be & EO).
        destruct (split_lines_head (acc ++ [(b, e)]) ps) as (x & en & r & ->).
        destruct (content_nil _ Ec) as [B _].
        rewrite <- app_assoc. cbn [layout body app].
        destruct (blanks_app acc (@cons placed (b, e) x) B) as [E1 _].
        rewrite E1. cbn [content]. rewrite Be.
        assert (EI : indentation (acc ++ @cons placed (b, e) x) = indentation acc).
        { change (acc ++ @cons placed (b, e) x)
            with (acc ++ @cons placed (b, e) nil ++ x).
          rewrite app_assoc.
          assert (C : content (acc ++ [(b, e)]) = [(b, e)]).
          { destruct (blanks_app acc [(b, e)] B) as [-> _]. cbn. now rewrite Be. }
          etransitivity; [exact (indentation_content _ x _ _ C)|].
          apply indentation_other; [assumption|].
          destruct e; try reflexivity. discriminate Be. }
        rewrite EI, EO. reflexivity.
Qed.

(** ** Comments end at the newline, by lexing *)
Lemma lexeme_newline U e rest :
  lexeme U e rest -> hd_error (elem_text e) = Some s_nl -> e = Newline.
Proof.
  intros L H. destruct L; cbn in H; try discriminate H; auto.
  - injection H as ->. cbv in H0. intuition discriminate.
  - injection H as ->. cbv in H0. intuition discriminate.
  - injection H as ->. cbv in H0. intuition discriminate.
  - destruct ds; [congruence|]. cbn in H. injection H as ->.
    inversion H1; subst. apply digit_no_nl in H6. discriminate.
  - destruct ds; [congruence|]. cbn in H. injection H as ->.
    inversion H1; subst. apply digit_no_nl in H7. discriminate.
  - injection H as ->. exfalso. apply H0. cbn. tauto.
  - injection H as ->. exfalso. apply H0. cbn. tauto.
Qed.

Lemma lexes_comments_end U gs es b : lexes U gs es -> comments_end (place b es).
Proof.
  intros L. revert b. induction L as [|e rest es L1 L2 IH]; intros b; cbn; [exact I|].
  split; [|apply IH].
  destruct e; cbn; try exact I.
  assert (X : next_not (fun g => g <> s_nl) rest) by now inversion L1.
  destruct L2 as [|e' rest' es' L3 L4]; cbn; [exact I|].
  pose proof (lexeme_text_nonempty U _ _ L3) as NE.
  eapply lexeme_newline; [exact L3|].
  destruct (elem_text e') as [|g t]; [congruence|].
  cbn in X |- *. destruct (string_dec g s_nl) as [->|N]; [reflexivity|tauto].
Qed.

(** ** The scan *)
Section Whole.
Variable U : unicode.
Hypothesis Sn : sane U.

(** The scanner after the main loop. *)
Definition finished (gs : list string) (s : scanner) : Prop :=
  exists b t, gs = b ++ t /\ sc_gi s = nil /\ sc_source s = sconcat gs /\
    sc_start s = slen (sconcat b) /\
    (sc_errors s <> nil \/
     t = nil /\ sc_line s = loc_line (position gs) /\
     sc_column s = sat_succ16 (loc_column (position gs))).

Lemma scan_loop_eof fuel s : sc_eof s = true -> scan_loop U fuel s = Done s.
Proof. intros H. destruct fuel; cbn; unfold is_at_end; now rewrite H. Qed.

Lemma mstep_open_errs m b t m' : mstep m (b, OpenString t) = Some m' -> m_errs m' <> nil.
Proof.
  cbn. destruct (mopen m (b, OpenString t)); [|discriminate].
  intros [= <-]. cbn. destruct (m_errs m0); discriminate.
Qed.

Theorem scan_loop_run gs es : lexes U gs es -> forall b fuel s m,
  valid_source gs -> core b gs s -> posn b s -> fields s m ->
  length gs < fuel ->
  match mrun m (place b es) with
  | None => scan_loop U fuel s = Diverged
  | Some m' => exists s', scan_loop U fuel s = Done s' /\ fields s' m' /\
                          finished (b ++ gs) s'
  end.
Proof.
  induction 1 as [|e rest es L1 L2 IH]; intros b fuel s m V C P F Lf.
  - cbn [place mrun]. destruct fuel as [|fuel]; [lia|].
    cbn [scan_loop]. unfold is_at_end. rewrite (proj2 (proj2 C)).
    rewrite (peek_index_core _ _ _ C).
    assert (G : sc_gi s = nil) by apply C.
    unfold scan_token, advance. cbn [sc_gi set_column set_start_column set_start].
    rewrite G. cbn [obind]. rewrite scan_loop_eof by reflexivity.
    eexists. split; [reflexivity|]. split.
    + destruct F. constructor; cbn; auto.
    + exists b, nil. rewrite app_nil_r. destruct C as (SC & _).
      rewrite app_nil_r in SC. cbn. repeat split; auto. right.
      destruct P as [P1 P2]. rewrite P2. auto.
  - cbn [place mrun]. destruct fuel as [|fuel]; [lia|].
    cbn [scan_loop]. unfold is_at_end. rewrite (proj2 (proj2 C)).
    pose proof (scan_token_step U b e rest s m Sn L1 V C P F) as ST.
    destruct (mstep m (b, e)) as [m1|] eqn:MS.
    2:{ rewrite ST. reflexivity. }
    destruct ST as (s1 & -> & F1 & A). cbn [obind].
    pose proof (lexeme_text_nonempty U _ _ L1) as NE.
    assert (Lf' : length rest < fuel).
    { rewrite app_length in Lf. destruct (elem_text e); [congruence|].
      cbn in Lf. lia. }
    assert (V' : valid_source rest) by (eapply Forall_app; exact V).
    assert (Normal : core (b ++ elem_text e) rest s1 /\ posn (b ++ elem_text e) s1 ->
      match mrun m1 (place (b ++ elem_text e) es) with
      | None => scan_loop U fuel s1 = Diverged
      | Some m' => exists s', scan_loop U fuel s1 = Done s' /\ fields s' m' /\
                              finished (b ++ elem_text e ++ rest) s'
      end).
    { intros [C1 P1]. rewrite app_assoc. now apply IH. }
    destruct e; try exact (Normal A).
    (* an unterminated string *)
    inversion L1; subst. inversion L2; subst.
    2:{ exfalso. match goal with H : lexeme _ _ _ |- _ =>
          apply lexeme_text_nonempty in H; destruct (elem_text e); [congruence|];
          cbn in *; discriminate end. }
    cbn [place mrun]. destruct A as (G & E & SC & S).
    rewrite scan_loop_eof by assumption.
    exists s1. split; [reflexivity|]. split; [assumption|].
    exists b, (s_quote :: body). cbn [elem_text app]. rewrite app_nil_r.
    repeat split; auto. left.
    rewrite (f_errs _ _ F1). eapply mstep_open_errs. exact MS.
Qed.

Lemma finished_slice gs s :
  valid_source gs -> finished gs s ->
  exists text, source_slice s (sc_start s) (peek_index s) = Done text /\
    (sc_errors s = nil -> text = EmptyString).
Proof.
  intros V (b & t & -> & G & SC & St & R).
  exists (sconcat t). split.
  - unfold source_slice, peek_index. rewrite G, SC, St.
    apply Forall_app in V. destruct V as [_ V].
    pose proof (slice_clusters b t nil) as H. rewrite app_nil_r in H.
    rewrite H by assumption. reflexivity.
  - intros E. destruct R as [R|[-> _]]; [congruence|reflexivity].
Qed.

Lemma add_outdents_spec n : forall s text,
  source_slice s (sc_start s) (peek_index s) = Done text ->
  add_outdents n s =
  Done (set_tokens (sc_tokens s ++
    repeat (mkToken Outdent text None None (sc_line s) (sc_start_column s)) n) s).
Proof.
  induction n as [|n IH]; intros s text H; cbn [add_outdents repeat].
  - rewrite app_nil_r. destruct s; reflexivity.
  - unfold add_token. rewrite H. cbn [obind].
    rewrite (IH _ text) by exact H. cbn. unfold set_tokens. cbn.
    rewrite <- app_assoc. reflexivity.
Qed.

Definition initial : mst := mkM nil nil nil 0 true false false false false.

Theorem scan_correct gs es :
  valid_source gs -> lexes U gs es ->
  scan_tokens U gs = match scan_spec gs es with
                     | None => Diverged
                     | Some r => Done r
                     end.
Proof.
  intros V L. unfold scan_tokens, scan_tokens_from.
  assert (C : core nil gs (scanner_new gs)).
  { repeat split. }
  assert (F : fields (scanner_new gs) initial) by (constructor; reflexivity).
  assert (P : posn nil (scanner_new gs)) by (split; reflexivity).
  assert (Lf : length gs < S (length (sc_gi (scanner_new gs)))).
  { cbn. enough (forall i, length (grapheme_indices i gs) = length gs) as ->; [lia|].
    clear. induction gs; intros; cbn; [reflexivity|]. now rewrite IHgs. }
  pose proof (scan_loop_run gs es L nil _ _ _ V C P F Lf) as R.
  pose proof (mrun_layout (place nil es) nil false None nil nil nil initial
                levels_nil) as M.
  unfold scan_spec.
  assert (LS : line_state nil false None nil nil nil initial) by reflexivity.
  specialize (M LS (Forall_nil _) (lexes_comments_end U gs es nil L)).
  unfold ran in M.
  destruct (layout nil false None (split_lines nil (place nil es)))
    as [[[toks errs] st]|].
  2:{ rewrite M in R. rewrite R. reflexivity. }
  destruct M as (m & EM & ET & EE & ES). rewrite EM in R.
  destruct R as (s' & -> & Fs & Fin). cbn [obind].
  cbn [app] in *.
  pose proof (finished_slice gs s' V Fin) as (text & SL & TX).
  unfold close_all_blocks.
  rewrite (add_outdents_spec _ _ text) by exact SL. cbn [obind].
  unfold add_token.
  change (source_slice (set_tokens ?a (set_start_column ?b s')) ?x ?y)
    with (source_slice s' (sc_start s') (peek_index s')).
  rewrite SL. cbn [obind sc_errors sc_tokens push_token set_tokens set_start_column].
  rewrite (f_errs _ _ Fs), EE, (f_toks _ _ Fs), ET.
  destruct errs as [|e0 errs]; [|reflexivity].
  cbn [snd obind].
  rewrite TX by (rewrite (f_errs _ _ Fs), EE; reflexivity).
  destruct Fin as (b & t & Egs & G & SC & St & R).
  destruct R as [R|(-> & Ln & Co)].
  { exfalso. apply R. rewrite (f_errs _ _ Fs), EE. reflexivity. }
  cbn [sc_line sc_start_column sc_indentation set_tokens set_start_column].
  rewrite (f_stack _ _ Fs), ES, Ln, Co.
  unfold closing. rewrite <- app_assoc.
  replace (sat_pred (sat_succ16 (loc_column (position gs))))
    with (N.min 65534 (loc_column (position gs))).
  2:{ pose proof (position_bound gs). unfold sat_pred, sat_succ16, u16_max. lia. }
  reflexivity.
Qed.

End Whole.
