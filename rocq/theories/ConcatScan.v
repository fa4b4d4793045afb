(** Scanning one program after the other. *)
From Verif Require Import Base F64 Token Scanner SpecLex SpecLayout SpecScan SpecConcat
  ScanLex ScanStep ScanLayout ScanUnique ScanProps ScanErrors ScanPairs.
From Coq Require Import Lia.

Lemma layout_levels ls : forall stack joined prev t e s, levels stack ->
  layout stack joined prev ls = Some (t, e, s) -> levels s.
Proof.
  induction ls as [|l ls IH]; intros stack joined prev t e s Lv H; cbn in H.
  - now injection H as <- <- <-.
  - destruct (match content (body l) with nil => _ | _ :: _ => _ end) as [[[op mi] st]|] eqn:E; [|discriminate].
    assert (levels st).
    { destruct (content (body l)); [now injection E as <- <- <-|]. eapply open_line_levels; eauto. }
    destruct (layout st _ _ ls) as [[[t' e'] s']|] eqn:E'; [|discriminate].
    injection H as <- <- <-. eapply IH; eauto.
Qed.

(** A blank line has no tokens. *)
Lemma blank_tokens l : forall prev, content l = nil -> elems_tokens prev l = nil.
Proof.
  induction l as [|[b e] l IH]; intros prev H; auto. cbn in *.
  destruct (is_blank e) eqn:B; [|discriminate]. rewrite IH by auto. destruct e; auto; discriminate.
Qed.
Lemma abuts_blank l : abuts (last_elem l) = false \/ exists e, ending l = ByContinuation e.
Proof. unfold last_elem. destruct (ending l); eauto. Qed.

Lemma open_flush stack joined p : levels stack ->
  exists x, t_type x = Outdent /\ t_string x = None /\ t_float x = None /\
  open_line stack joined 0 p = Some (repeat x (length stack), nil, nil).
Proof.
  intros [_ P]. destruct p as [b e].
  exists (mk_at Outdent (first_cluster e) None None (position b)). repeat split.
  unfold open_line. destruct stack as [|n stack]; [reflexivity|]. cbn [hd].
  inversion P; subst.
  destruct (N.eqb_spec 0 n); [lia|]. destruct (N.ltb_spec n 0); [lia|].
  assert (F : forall s, Forall (fun n => (0 < n)%N) s -> filter (fun n => n <=? 0)%N s = nil /\ filter (fun n => 0 <? n)%N s = s).
  { induction 1 as [|m s M Ms [I1 I2]]; [auto|]. cbn. destruct (N.leb_spec m 0); [lia|].
    destruct (N.ltb_spec 0 m); [|lia]. now rewrite I1, I2. }
  destruct (F (n :: stack) P) as [-> ->]. reflexivity.
Qed.

(** Lines that start at the left margin close what is open, and are read as if nothing came before. *)
Lemma restart ls : forall stack joined prev, levels stack -> flush ls ->
  match layout nil false prev ls with
  | None => layout stack joined prev ls = None
  | Some (t, e, s) =>
      (exists x, t_type x = Outdent /\ t_string x = None /\ t_float x = None /\
         layout stack joined prev ls = Some (repeat x (length stack) ++ t, e, s)) \/
      (t = nil /\ s = nil /\ layout stack joined prev ls = Some (nil, e, stack))
  end.
Proof.
  assert (G : forall ls stack joined joined' prev, levels stack -> flush ls ->
    match layout nil joined' prev ls with
    | None => layout stack joined prev ls = None
    | Some (t, e, s) =>
      (exists x, t_type x = Outdent /\ t_string x = None /\ t_float x = None /\
         layout stack joined prev ls = Some (repeat x (length stack) ++ t, e, s)) \/
      (t = nil /\ s = nil /\ layout stack joined prev ls = Some (nil, e, stack))
    end).
  { clear. induction ls as [|l ls IH]; intros stack joined joined' prev Lv F.
    - cbn. right. auto.
    - cbn [flush] in F. cbn [layout]. destruct (content (body l)) as [|p c] eqn:C.
      + assert (T : terminator l = nil) by (unfold terminator; rewrite C; now destruct (ending l)).
        rewrite T, (blank_tokens _ prev C). cbn [app elems_errors flat_map].
        specialize (IH stack (joins_next joined l) (joins_next joined' l) (last_elem l) Lv F).
        destruct (layout nil _ _ ls) as [[[t e] s]|]; [|now rewrite IH].
        destruct IH as [(x & X1 & X2 & X3 & ->)|(-> & -> & ->)]; [left; exists x; auto|right; auto].
      + rewrite F. destruct (open_flush nil joined' p levels_nil) as (y & _ & _ & _ & ->).
        destruct (open_flush stack joined p Lv) as (x & X1 & X2 & X3 & ->).
        assert (J : joins_next joined l = joins_next joined' l) by (unfold joins_next; rewrite C; now destruct (ending l)).
        rewrite J. cbn [repeat length app].
        destruct (layout nil _ _ ls) as [[[t e] s]|]; [|reflexivity].
        left. exists x. repeat split; auto. }
  intros. now apply G.
Qed.

Lemma flush_alike ls : forall ms, Forall2 alike ls ms -> flush ls -> flush ms.
Proof.
  induction ls as [|l ls IH]; intros ms F H; inversion F as [|? m ? ms' A F']; subst; auto.
  cbn [flush] in *. destruct A as [B _]. rewrite <- (indentation_alike _ _ B).
  destruct (leading_alike _ _ B) as [_ C].
  destruct (content (body l)), (content (body m)); try discriminate; auto.
Qed.

(** What the scanner makes of [b] after [a], given what it makes of [a] and of [b]. *)
Definition outdents (o : list token) : Prop :=
  Forall (fun t => t_type t = Outdent /\ t_string t = None /\ t_float t = None) o.
Lemma outdents_repeat x n : t_type x = Outdent -> t_string x = None -> t_float x = None -> outdents (repeat x n).
Proof. intros. apply Forall_forall. intros t I. apply repeat_spec in I. now subst. Qed.

Section Concat.
Variable U : unicode.
Hypothesis Sn : sane U.
Variables a b : list string.
Hypothesis V : valid_source a.
Hypothesis V' : valid_source b.
Variables es es' : list elem.
Hypothesis L : lexes U a es.
Hypothesis W : whole_lines es.
Hypothesis L' : lexes U b es'.
Hypothesis F : flush (source_lines es').
Variable ta : list token.
Hypothesis S : scan_tokens U a = Done (Ok ta).

Lemma scan_concat : exists t o e, ta = t ++ o ++ [e] /\ outdents o /\ t_type e = Eof /\
  match scan_tokens U b with
  | Done (Ok tb) => exists o' tb', scan_tokens U (a ++ b) = Done (Ok (t ++ o' ++ tb')) /\
      length o = length o' /\ outdents o' /\ map payload tb = map payload tb'
  | Done (Err cs) => exists cs', scan_tokens U (a ++ b) = Done (Err cs') /\ map c_message cs = map c_message cs'
  | Diverged => scan_tokens U (a ++ b) = Diverged
  | _ => False
  end.
Proof.
  assert (LL : lexes U (a ++ b) (es ++ es')) by now apply lexes_whole.
  assert (VV : valid_source (a ++ b)) by (apply Forall_app; auto).
  destruct (whole_lines_split es W) as (pre & SP & AB & SL). destruct (SP es') as (ps & E & Q). clear SP.
  rewrite (scan_correct U Sn a es V L) in S.
  rewrite (scan_correct U Sn b es' V' L'), (scan_correct U Sn (a ++ b) (es ++ es') VV LL).
  unfold scan_spec in *. fold (source_lines es) in S. fold (source_lines es'). fold (source_lines (es ++ es')).
  rewrite SL in S. rewrite Q. rewrite layout_app in *.
  destruct (layout nil false None pre) as [[[t err] s]|] eqn:EP; [|discriminate]. cbn [glue] in *.
  assert (Lv := layout_levels _ _ _ _ _ _ _ levels_nil EP).
  cbn in S. rewrite !app_nil_r in S. destruct err as [|c0 err]; [|discriminate]. injection S as S.
  unfold closing in S. match type of S with t ++ repeat ?x ?n ++ [?y] = _ => exists t, (repeat x n), y end.
  split; [auto|]. split; [now apply outdents_repeat|]. split; [reflexivity|].
  assert (A : Forall2 alike (source_lines es') (split_lines nil ps)).
  { apply split_alike; auto. assert (X : map snd (place nil es') = map snd ps) by now rewrite map_snd_place.
    revert X. generalize (place nil es'). clear. intros qs. revert ps.
    induction qs as [|[b e] qs IH]; intros [|[b' e'] ps] X; try discriminate; auto.
    cbn in X. injection X as -> X. cbn [map]. unfold look at 1 3. cbn [snd]. f_equal. auto. }
  assert (F' := flush_alike _ _ A F).
  rewrite (layout_prev s _ _ None) by exact AB.
  assert (R := restart _ s (snd (walk nil false pre)) None Lv F').
  assert (Y := layout_alike _ _ nil false None A).
  destruct (layout nil false None (source_lines es')) as [[[t1 e1] s1]|],
    (layout nil false None (split_lines nil ps)) as [[[t2 e2] s2]|]; cbn [layouts_alike] in Y; try contradiction; cycle 1.
  { now rewrite R. }
  destruct Y as (Y1 & Y2 & <-).
  assert (CL : forall n g g', map payload (closing n g) = map payload (closing n g')).
  { intros n g g'. unfold closing. rewrite !map_app. f_equal. induction n as [|n IH]; cbn; [auto|]. now f_equal. }
  destruct R as [(x & X1 & X2 & X3 & ->)|(-> & -> & ->)]; cbn [app].
  - destruct e1 as [|c1 e1], e2 as [|c2 e2]; try discriminate Y2.
    + exists (repeat x (length s)), (t2 ++ closing (length s1) (a ++ b)). rewrite <- !app_assoc.
      split; [reflexivity|]. rewrite !repeat_length. split; [reflexivity|].
      split; [now apply outdents_repeat|]. rewrite !map_app. f_equal; [exact Y1|apply CL].
    + eexists. split; [reflexivity|exact Y2].
  - destruct e1 as [|c1 e1], e2 as [|c2 e2]; try discriminate Y2.
    + destruct t1; [|discriminate]. rewrite !app_nil_r. cbn [app length].
      set (z := fun k => mkToken k "" None None (loc_line (position (a ++ b))) (N.min 65534 (loc_column (position (a ++ b))))).
      exists (repeat (z Outdent) (length s)), [z Eof]. split; [reflexivity|].
      rewrite !repeat_length. split; [reflexivity|]. split; [now apply outdents_repeat|]. reflexivity.
    + eexists. split; [reflexivity|exact Y2].
Qed.
End Concat.
