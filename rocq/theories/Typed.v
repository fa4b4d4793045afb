(** A program entered piece by piece is the program. *)
From Verif Require Import Base F64 Token Ast Scanner Parser Resolver Show Driver StrFacts SpecLex SpecLayout SpecScan SpecGrammar SpecConcat
  SpecPlace SpecDriver SpecTyped ScanPairs ScanErrors ScanLayout ScanUnique ScanProps ParseProps ParseLine ResolveProps RelabelResolve
  ConcatScan ConcatFinal DriverFacts DriverProps.
From Coq Require Import Lia.

Lemma flush_app a : forall b c, flush (a ++ [c]) -> flush b -> flush (a ++ b).
Proof.
  induction a as [|l a IH]; intros b c X Y; cbn [app flush] in *; auto.
  destruct (content (body l)); eauto.
Qed.
Lemma starts_payload ks i j : map payload i = map payload j -> starts ks i -> starts ks j.
Proof. destruct i, j; try discriminate; auto. intros E. injection E as E _ _ _ _. cbn. now rewrite E. Qed.
Lemma entry_payload i j : map payload i = map payload j -> entry_here i -> entry_here j.
Proof.
  intros E (t & c & r & -> & I & K). destruct j as [|t' [|c' r']]; try discriminate.
  injection E as E1 _ _ _ E2 _ _ _ _. exists t', c', r'. rewrite <- E1, <- E2. auto.
Qed.
Lemma fresh_concat t o e o' tb tb' : fresh_start (t ++ o ++ [e]) -> fresh_start tb -> outdents o' ->
  map payload tb = map payload tb' -> fresh_start (t ++ o' ++ tb').
Proof.
  intros [A1 A2] [B1 B2] O E. assert (B1' : ~ starts [Colon; RightBrace; Else; Equal; Terminator] tb').
  { intros X. apply B1. eapply starts_payload; [symmetry; exact E|auto]. }
  destruct t as [|u [|v t]].
  - destruct o' as [|x o']; cbn [app].
    + split; auto. intros X. apply B2. eapply entry_payload; [symmetry; exact E|auto].
    + inversion O as [|? ? (K & _) _]; subst. split.
      * unfold starts. rewrite K. cbn. intuition discriminate.
      * intros (y & z & r & Q & I & _). injection Q as -> _. rewrite K in I. cbn in I. intuition discriminate.
  - split; [exact A1|]. intros (y & z & r & Q & I & K). cbn [app] in Q. injection Q as -> Q.
    destruct o' as [|x o']; cbn [app] in Q.
    + apply B1'. rewrite Q. unfold starts. rewrite K. cbn. auto.
    + injection Q as -> _. inversion O as [|? ? (K' & _) _]; subst. congruence.
  - split; [exact A1|]. intros (y & z & r & Q & I & K). injection Q as -> -> Q. apply A2. eexists _, _, _. split; [reflexivity|]. auto.
Qed.

Section Pieces.
Variables (U : unicode) (Sn : sane U) (oc : bool).
Lemma empty_source : exists toks, scan_tokens U nil = Done (Ok toks) /\ fresh_start toks /\ parse U oc nil = Done (Ok nil).
Proof.
  eexists. split; [reflexivity|]. split; [|reflexivity].
  split; [cbn; intuition discriminate|intros (? & ? & ? & Q & _); discriminate Q].
Qed.
Lemma pieces_text gs ls : Forall2 (piece U oc) gs ls ->
  valid_source (concat gs) /\ exists es l toks, lexes U (concat gs) es /\ flush (source_lines es) /\
    scan_tokens U (concat gs) = Done (Ok toks) /\ fresh_start toks /\
    parse U oc (concat gs) = Done (Ok l) /\ map unplaced l = map unplaced (concat ls).
Proof.
  induction 1 as [|g l gs ls P _ IH].
  - split; [constructor|]. destruct empty_source as (toks & A & B & C). exists nil, nil, toks. repeat split; auto; try constructor; apply B.
  - destruct IH as (V' & es' & l' & tb & L' & F' & S' & Fr' & P' & E').
    destruct P as (V & P & es & ta & L & W & F & S & Fr & En). cbn [concat].
    assert (VV : valid_source (g ++ concat gs)) by (apply Forall_app; auto). split; auto.
    destruct (parse_concat U Sn g (concat gs) V V' es es' L W L' F' oc ta l S P ltac:(intros tb' X; congruence) En) as [G _].
    rewrite P' in G. cbn in G. destruct (parse U oc (g ++ concat gs)) as [[m|]| | |] eqn:PM; try contradiction.
    destruct (scan_concat U Sn g (concat gs) V V' es es' L W L' F' ta S) as (t & o & e & -> & O & K & H).
    rewrite S' in H. destruct H as (o' & tb' & SC & _ & O' & Al).
    exists (es ++ es'), m, (t ++ o' ++ tb'). split; [now apply lexes_whole|]. split.
    + destruct (whole_lines_split es W) as (pre & SP & _ & SL). destruct (SP es') as (ps & Q & ->). rewrite SL in F.
      eapply flush_app; [exact F|]. eapply flush_alike; [|exact F']. apply split_alike; auto.
      assert (X : map snd (place nil es') = map snd ps) by now rewrite map_snd_place.
      revert X. generalize (place nil es'). clear. intros qs. revert ps.
      induction qs as [|[b e] qs IH]; intros [|[b' e'] ps] X; try discriminate; auto.
      cbn in X. injection X as -> X. cbn [map]. unfold look at 1 3. cbn [snd]. f_equal. auto.
    + split; [exact SC|]. split; [eapply fresh_concat; eauto|]. split; auto. rewrite G, !map_app. now f_equal.
Qed.
End Pieces.

Local Open Scope string_scope.
Section Session.
Variables (U : unicode) (Sn : sane U) (oc : bool) (F : formats).
Lemma finished_stays p l : fold_left (repl_step U oc F) l (Finished p) = Finished p.
Proof. induction l; auto. Qed.
Lemma pieces_session gs ls : Forall2 (piece U oc) gs ls -> forall o e s,
  match resolver_resolve (concat ls) s with
  | Done (r, s') => exists rs, List.length rs = List.length gs /\ together rs = r /\
      fold_left (repl_step U oc F) (map Line gs) (Reading (mkReading o e s)) =
      Reading (mkReading (o ++ cat (map (answer_out F) rs)) (e ++ cat (map answer_err rs)) s')
  | Panicked w => exists p, fold_left (repl_step U oc F) (map Line gs) (Reading (mkReading o e s)) = Finished p /\
      p_end p = Aborted w
  | _ => True
  end.
Proof.
  induction 1 as [|g l gs ls P _ IH]; intros o e s.
  - cbn. exists nil. cbn. now rewrite !append_nil_r.
  - cbn [concat map fold_left repl_step repl_read r_resolver r_out r_err]. rewrite resolve_pieces.
    destruct P as (V & P & _). apply (file_repl U oc g l Sn V) in P. unfold run. rewrite P. cbn [obind].
    destruct (resolver_resolve l s) as [[r s1]|w| |]; cbn [obind fst snd]; auto.
    2:{ eexists. rewrite finished_stays. split; reflexivity. }
    destruct (print_result F r) as [out err] eqn:Q.
    specialize (IH (o ++ out ++ prompt) (e ++ err) s1).
    destruct (resolver_resolve (concat ls) s1) as [[r' s']|w| |]; cbn [obind fst snd]; auto.
    destruct IH as (rs & Le & <- & ->). exists (r :: rs). split; [cbn; congruence|]. split; [reflexivity|]. cbn [map cat].
    assert (A : out ++ prompt = answer_out F r /\ err = answer_err r).
    { destruct r as [x|cs]; unfold print_result in Q; injection Q as <- <-; unfold answer_out, answer_err.
      - rewrite <- append_assoc_s. auto.
      - split; [reflexivity|]. apply error_lines_eq. }
    destruct A as [-> ->]. now rewrite !append_assoc_s.
Qed.
Lemma typed gs ls name : Forall2 (piece U oc) gs ls ->
  (exists r rs res, repl U oc F (map Line gs) = Reading r /\ List.length rs = List.length gs /\
     r_out r = "> " ++ cat (map (answer_out F) rs) /\ r_err r = cat (map answer_err rs) /\
     same_program (Done (together rs)) (Done res) /\
     main_file U oc F name (Contents (concat gs)) =
       match res with
       | Ok l => mkProcess (debug_program F l ++ s_nl) "" (Exited 0)
       | Err cs => mkProcess "" (cat (map error_line cs)) (Exited 65)
       end) \/
  (exists p w, repl U oc F (map Line gs) = Finished p /\ p_end p = Aborted w /\
     main_file U oc F name (Contents (concat gs)) = mkProcess "" "" (Aborted w)).
Proof.
  intros P. destruct (pieces_text U Sn oc gs ls P) as (V & es & l & toks & _ & _ & _ & _ & PL & E).
  destruct new_done as (s & N & _). assert (X := pieces_session gs ls P "> " "" s).
  assert (Y := resolver_same l (concat ls) s E).
  unfold repl, repl_start, main_file. rewrite N. cbn [obind]. unfold run. rewrite PL. cbn [obind].
  destruct (resolver_resolve l s) as [[res s1]|w| |], (resolver_resolve (concat ls) s) as [[r' s1']|w'| |]; try contradiction.
  - left. destruct Y as [Y <-]. destruct X as (rs & Le & T & X). eexists _, rs, res. split; [exact X|].
    split; auto. split; [reflexivity|]. split; [reflexivity|]. split.
    + rewrite T. destruct res, r'; cbn in *; auto; try contradiction.
      unfold same_messages in *. clear - Y. induction Y as [|? ? ? ? [A B]]; constructor; auto. split; auto.
    + destruct res as [x|cs]; cbn; auto. now rewrite error_lines_eq.
  - right. subst w'. destruct X as (p & X & E'). exists p, w. auto.
Qed.
End Session.
