(** Lines added to a text keep its errors of scanning, all but the last; and so no lines repair two errors. *)
From Verif Require Import Base F64 Token Ast Scanner Parser SpecLex SpecLayout SpecScan SpecIncremental SpecParse
  ScanLex ScanStep ScanLayout ScanUnique ScanProps ScanErrors ScanPairs ScanFinal ConcatScan PrefixFinal ParseProps StableFinal Incremental
  Repair RepairTop.
From Coq Require Import Lia.

Lemma open_extend U d x : forall es gs, lexes U gs (es ++ [OpenString x]) ->
  exists es', lexes U (gs ++ d) (es ++ es') /\ lexes U (x ++ d) es' /\ exists b, x = s_quote :: b.
Proof.
  induction es as [|e es IH]; intros gs L; cbn [app] in *.
  - inversion L as [|? rest ? L1 L2]; subst. inversion L1; subst. destruct (lexes_total U ((s_quote :: body) ++ d)) as [es' L'].
    exists es'. cbn [elem_text]. rewrite app_nil_r. split; auto. split; eauto.
  - inversion L as [|? rest ? L1 L2]; subst. destruct (IH _ L2) as (es' & L' & Lx & b & Q). exists es'. split; [|eauto].
    rewrite <- app_assoc. constructor; auto. apply lexeme_extend; auto.
    + intros ->. inversion L2 as [Z|? ? ? L3 _ Z]; subst; [now destruct es|].
      apply app_eq_nil in Z. destruct Z as [Z _]. revert Z. eapply lexeme_text_nonempty; eauto.
    + intros ->. apply lexes_dot in L2. destruct es as [|? [|]]; discriminate.
Qed.
(** What a quote begins is a string, open or not. *)
Definition opens (e : elem) : Prop := is_blank e = false /\ ~ line_closing e.
Lemma quote_opens U b es : lexes U (s_quote :: b) es -> exists e r, es = e :: r /\ opens e.
Proof.
  intros L. inversion L as [|e rest r L1 L2 Q]; subst. exists e, r. split; auto. unfold opens.
  inversion L1; subst; cbn [elem_text app] in Q; try discriminate; cbn; auto; try (injection Q as -> Q).
  all: try (exfalso; match goal with H : In _ _ |- _ => cbn in H; intuition discriminate end).
  all: try (split; [reflexivity|tauto]).
Qed.
Lemma split_open ps : forall acc bf, exists L b, forall e qs, ~ line_closing e ->
  split_lines acc (ps ++ (bf, e) :: qs) = L ++ split_lines (b ++ [(bf, e)]) qs.
Proof.
  induction ps as [|[c x] ps IH]; intros acc bf; cbn [app split_lines].
  - exists nil, acc. intros e qs N. destruct e; try reflexivity; now destruct N.
  - destruct x; try (exact (IH _ bf)); destruct (IH nil bf) as (L & b & H);
      eexists (_ :: L), b; intros e qs N; cbn [app]; now rewrite (H e qs N).
Qed.
Lemma split_first qs : forall acc, exists m k r, split_lines acc qs = mkLine (acc ++ m) k :: r.
Proof.
  induction qs as [|[c x] qs IH]; intros acc; cbn [split_lines].
  - exists nil, ByEof, nil. now rewrite app_nil_r.
  - destruct x; try (match goal with |- context [split_lines (acc ++ [?q]) qs] => destruct (IH (acc ++ [q])) as (m & en & r & ->);
      exists (q :: m), en, r; rewrite <- app_assoc; reflexivity end);
      eexists nil, _, _; rewrite app_nil_r; reflexivity.
Qed.
Lemma line_parts bf e m : is_blank e = false -> forall b,
  leading (b ++ (bf, e) :: m) = leading b /\ content (b ++ (bf, e) :: m) = content b ++ (bf, e) :: m.
Proof.
  intros N. induction b as [|[c x] b IH]; cbn [app leading content]; [now rewrite N|]. destruct IH as [A B].
  destruct (is_blank x); auto. split; [now rewrite A|auto].
Qed.
Lemma line_errors pre b bf e m k : opens e ->
  exists y, errors_of pre [mkLine (b ++ (bf, e) :: m) k] = y ++ elem_errors (bf, e) ++ elems_errors m /\
  forall e' m' k' r, opens e' -> exists more, errors_of pre (mkLine (b ++ (bf, e') :: m') k' :: r) = y ++ more.
Proof.
  intros [N _]. destruct (line_parts bf e m N b) as [L1 C1].
  set (mis := fun e m k => mismatch pre (mkLine (b ++ (bf, e) :: m) k)).
  exists (elems_errors (leading b) ++ mis e m k ++ elems_errors (content b)). split.
  - cbn [errors_of body]. rewrite L1, C1. unfold elems_errors. rewrite flat_map_app. cbn [flat_map]. rewrite app_nil_r, !app_assoc.
    reflexivity.
  - intros e' m' k' r [N' _]. destruct (line_parts bf e' m' N' b) as [L2 C2].
    assert (M : mis e' m' k' = mis e m k).
    { unfold mis, mismatch, indentation. cbn [body]. rewrite L1, L2, C1, C2. destruct (content b) as [|[c x] ?]; reflexivity. }
    cbn [errors_of body]. fold (mis e' m' k'). rewrite M, L2, C2. unfold elems_errors. rewrite flat_map_app.
    eexists. rewrite <- !app_assoc. reflexivity.
Qed.

Section Texts.
Variables (U : unicode) (Sn : sane U).
Theorem scan_errors_stay c d cs e r : valid_source ((c ++ [s_nl]) ++ d) ->
  scan_tokens U (c ++ [s_nl]) = Done (Err (cs ++ [e])) -> scan_tokens U ((c ++ [s_nl]) ++ d) = Done r -> cs <> nil ->
  exists more, r = Err (cs ++ more).
Proof.
  intros V H G C. assert (Vc := valid_prefix _ _ V). destruct (lexes_total U (c ++ [s_nl])) as [es L].
  destruct es as [|x es _] using rev_ind. { inversion L as [Q|]. now destruct c. }
  assert (Z : (exists t, x = OpenString t) \/ line_closing x).
  { destruct x; try (right; eapply last_line_closing; eauto; discriminate); eauto. }
  destruct Z as [[t ->]|LC].
  - destruct (open_extend U d t _ _ L) as (es' & L2 & Lt & b & ->).
    destruct (quote_opens U _ _ Lt) as (e' & r' & -> & O').
    assert (X := proj2 (fails_exactly U Sn _ _ _ Vc L H) _ eq_refl). destruct X as [X _].
    destruct (scan_cases U _ _ Sn V L2) as [[_ E]|[_ E]]; rewrite E in G; [discriminate|]. injection G as <-.
    unfold source_lines in *. rewrite place_app in *. cbn [place] in *.
    destruct (split_open (place nil es) nil (nil ++ text_of es)) as (ls & bd & SO).
    assert (O : opens (OpenString (s_quote :: b))) by (split; [reflexivity|exact (fun z => z)]).
    rewrite (SO _ _ (proj2 O)) in X. rewrite (SO _ _ (proj2 O')). cbn [split_lines] in X.
    match goal with |- context [split_lines (bd ++ [?pe]) ?qs] => destruct (split_first qs (bd ++ [pe])) as (m & k & rr & ->) end.
    rewrite errors_of_app in *. cbn [app] in *.
    destruct (line_errors ls bd (text_of es) (OpenString (s_quote :: b)) nil ByEof O) as (y & Y & F).
    rewrite Y in X. unfold elems_errors in X. cbn [elem_errors flat_map app] in X. rewrite app_assoc in X. apply app_inj_tail in X. destruct X as [-> _].
    rewrite <- (app_assoc bd). cbn [app]. destruct (F e' m k rr O') as [more ->]. rewrite app_assoc.
    destruct ((errors_of nil ls ++ y) ++ more) eqn:Q; [|rewrite <- Q; eauto]. apply app_eq_nil in Q. destruct Q as [Q _]. now destruct C.
  - assert (SC : strings_closed (es ++ [x])).
    { intros t I. apply in_app_or in I. destruct I as [I|[->|[]]]; [|exact LC].
      apply in_split in I. destruct I as (u & v & ->). clear - L.
      rewrite <- app_assoc in L. cbn [app] in L. revert L. generalize (c ++ [s_nl]).
      induction u as [|a u IH]; intros g L; inversion L as [|? rest ? L1 L2]; subst; [|exact (IH _ L2)].
      inversion L1; subst. inversion L2 as [Q|? ? ? L3 _ Q]; [now destruct v|].
      apply app_eq_nil in Q. destruct Q as [Q _]. revert Q. eapply lexeme_text_nonempty; eauto. }
    assert (X := scan_lines U Sn c d _ V L SC). rewrite H, G in X. cbn [extends] in X.
    destruct X as [X|[more X]]; [discriminate|]. injection X as ->. rewrite <- app_assoc. eauto.
Qed.
Lemma modes_stay trailing oc c d tc t2 cs e : valid_source ((c ++ [s_nl]) ++ d) ->
  scan_tokens U (c ++ [s_nl]) = Done (Ok tc) -> scan_tokens U ((c ++ [s_nl]) ++ d) = Done (Ok t2) ->
  parse_tokens tc trailing oc = Done (Err (cs ++ [e])) -> cs <> nil ->
  exists more, parse_tokens t2 trailing oc = Done (Err (cs ++ more)).
Proof.
  intros V S1 S2 H C. assert (Vc := valid_prefix _ _ V).
  destruct (scan_extend U Sn c d tc t2 V S1 S2) as (X & outs & eof & R & -> & FO & EO & ->).
  assert (O1 := scanned_ok U _ _ Sn Vc S1). assert (O2 := scanned_ok U _ _ Sn V S2).
  eapply (tokens_kept X (outs ++ [eof]) R); eauto.
  - destruct O1 as [(bd & eo & Q & _ & F) _ _]. rewrite app_assoc in Q. apply app_inj_tail in Q. destruct Q as [<- _].
    now apply Forall_app in F.
  - apply Forall_app. split; [|repeat constructor; now rewrite EO]. eapply Forall_impl; [|exact FO]. intros a ->. reflexivity.
Qed.
Theorem errors_stay oc c d tc t2 cs e : valid_source ((c ++ [s_nl]) ++ d) ->
  scan_tokens U (c ++ [s_nl]) = Done (Ok tc) -> scan_tokens U ((c ++ [s_nl]) ++ d) = Done (Ok t2) ->
  parse U oc (c ++ [s_nl]) = Done (Err (cs ++ [e])) -> cs <> nil ->
  exists more, parse U oc ((c ++ [s_nl]) ++ d) = Done (Err (cs ++ more)).
Proof. intros V S1 S2. unfold parse, parse_with. rewrite S1, S2. cbn [obind]. now apply modes_stay with (c := c) (d := d). Qed.
Theorem repl_errors_stay oc c d tc t2 cs e : valid_source ((c ++ [s_nl]) ++ d) ->
  scan_tokens U (c ++ [s_nl]) = Done (Ok tc) -> scan_tokens U ((c ++ [s_nl]) ++ d) = Done (Ok t2) ->
  parse_repl_line U oc (c ++ [s_nl]) = Done (Err (cs ++ [e])) -> cs <> nil ->
  exists more, parse_repl_line U oc ((c ++ [s_nl]) ++ d) = Done (Err (cs ++ more)).
Proof. intros V S1 S2. unfold parse_repl_line, parse_with. rewrite S1, S2. cbn [obind]. now apply modes_stay with (c := c) (d := d). Qed.
(** Whatever kind of errors: two are never repaired. *)
Theorem never_repaired oc c d a b cs : valid_source ((c ++ [s_nl]) ++ d) ->
  parse U oc (c ++ [s_nl]) = Done (Err (a :: b :: cs)) -> forall l, parse U oc ((c ++ [s_nl]) ++ d) <> Done (Ok l).
Proof.
  intros V H l G. assert (Vc := valid_prefix _ _ V).
  destruct (@exists_last _ (b :: cs) ltac:(discriminate)) as (bs & e & Q).
  assert (E : a :: b :: cs = (a :: bs) ++ [e]) by (cbn; now rewrite Q). rewrite E in H.
  destruct (scan_tokens U ((c ++ [s_nl]) ++ d)) as [[t2|]| | |] eqn:S2; try (unfold parse, parse_with in G; rewrite S2 in G; discriminate).
  destruct (scan_tokens U (c ++ [s_nl])) as [[tc|er]| | |] eqn:S1; try (unfold parse, parse_with in H; rewrite S1 in H; discriminate).
  - destruct (errors_stay oc c d tc t2 (a :: bs) e V S1 S2 H ltac:(discriminate)) as [more M]. congruence.
  - unfold parse, parse_with in H. rewrite S1 in H. cbn [obind] in H. injection H as ->.
    destruct (scan_errors_stay c d (a :: bs) e _ V S1 S2 ltac:(discriminate)) as [more M]. discriminate.
Qed.
End Texts.
