(** Files, REPL sessions and the WebAssembly entry point do what SpecWhole.v
    says. *)
From Verif Require Import Base F64 Token Ast Scanner Parser Resolver Show Driver SpecLex SpecLayout SpecScan
  SpecGrammar SpecParse SpecReject SpecResolve SpecCheck SpecDriver SpecWhole
  ScanLayout ScanFinal ParseProps ParseComplete RejectFinal ResolveStep ResolveInv ResolveFinal ResolveProps ResolveCauses
  ShowFacts DriverFacts SpecData DataFacts.
Local Open Scope string_scope.

Lemma inworld_top : forall w s, inworld w s -> top_state s /\ table s = w_table w.
Proof.
  intros w [scs ft ct] [S F _ C _]. cbn in S, F, C.
  destruct scs as [|g [|]]; cbn in S; try contradiction.
  destruct S as (-> & N & _). subst ft. destruct ct; try discriminate C.
  split; [|unfold table, global_scope; cbn; apply layout_names].
  eexists. split; [reflexivity|]. eexists _, _. split; [reflexivity|exact N].
Qed.

Section Whole.
Variable U : unicode.
Hypothesis Sn : sane U.
Variable oc : bool.

Section Text.
Variable gs : list string.
Hypothesis V : valid_source gs.
Variable trailing : bool.
Let front := front U oc trailing gs.

Lemma front_scans : front =
  parse_with U (fun toks => parse_tokens toks trailing oc) gs.
Proof. unfold front, DriverFacts.front. destruct trailing; reflexivity. Qed.

(** The fate of a text, by way of the model. *)
Definition computed (w : world) (s : rstate) (f : fate) (w' : world) : Prop :=
  match front with
  | Diverged => f = Endless /\ w' = w
  | Done (Err cs) => f = Mistaken cs /\ w' = w
  | Done (Ok l) =>
    match program_causes w l with
    | None => f = Deep /\ w' = w
    | Some (nil, w1) =>
      w' = w1 /\ exists l' s', resolver_resolve l s = Done (Ok l', s') /\ f = Understood l'
    | Some (cs, w1) => w' = w1 /\ f = Mistaken cs
    end
  | _ => False
  end.

Lemma phrase_front : forall es toks eof l, lexes U gs es -> scan_spec gs es = Some (Ok toks) ->
  t_type eof = Eof -> derives trailing false Program toks (VSs l) [eof] -> front = Done (Ok l).
Proof.
  intros es toks eof l L S K D. rewrite front_scans. unfold parse_with.
  assert (E := scan_correct U Sn gs es V L). rewrite S in E. rewrite E. cbn [obind].
  apply parse_tokens_exact; [|eauto]. eapply source_ok; eauto.
Qed.

Lemma means_computed : forall w s f w', inworld w s ->
  (means U trailing w gs f w' <-> computed w s f w').
Proof.
  intros w s f w' Hw. split.
  - intros M. unfold computed. destruct M as [es L S|es cs L S|es toks cs L S E N|
      es toks eof l cs w' L S K D E N|es toks eof l L S K D E|es toks eof l w' l' L S K D E EE A].
    + rewrite front_scans. unfold parse_with. rewrite (scan_correct U Sn gs es V L), S. cbn. auto.
    + rewrite front_scans. unfold parse_with. rewrite (scan_correct U Sn gs es V L), S. cbn. auto.
    + rewrite front_scans. unfold parse_with.
      assert (T := scan_correct U Sn gs es V L). rewrite S in T. rewrite T. cbn [obind].
      rewrite (proj2 (parse_tokens_errors toks trailing oc cs (source_ok U Sn gs V toks T) N) E). auto.
    + rewrite (phrase_front _ _ _ _ L S K D), E. destruct cs; [congruence|auto].
    + rewrite (phrase_front _ _ _ _ L S K D), E. auto.
    + rewrite (phrase_front _ _ _ _ L S K D), E. split; auto.
      assert (C := call_exact l w s Hw). rewrite E in C. destruct C as (l2 & s2 & R & Hw2).
      exists l2, s2. split; auto. f_equal. eapply addressed_unique; eauto.
      * apply (inworld_top _ _ Hw).
      * rewrite (proj2 (inworld_top _ _ Hw2)). exact A.
  - destruct (lexing_unique U gs) as (es & L & _). assert (T := scan_correct U Sn gs es V L).
    unfold computed. rewrite front_scans. unfold parse_with. rewrite T.
    destruct (scan_spec gs es) as [[toks|cs]|] eqn:S; cbn [obind].
    + assert (OK : tokens_ok toks) by (eapply source_ok; eauto).
      destruct (parse_tokens toks trailing oc) as [[l|cs]| | |] eqn:P; try contradiction.
      * apply parse_tokens_exact in P; auto. destruct P as (eof & K & D).
        assert (C := call_exact l w s Hw).
        destruct (program_causes w l) as [[[|c cs] w1]|] eqn:E.
        -- intros (-> & l' & s' & R & ->). destruct C as (l2 & s2 & R2 & Hw2). rewrite R in R2.
           injection R2 as <- <-.
           assert (H := program_ok_start _ _ _ _ (proj1 (inworld_top _ _ Hw)) R).
           eapply MTree; eauto; [exact (proj1 (program_ok _ _ _ _ (proj1 (inworld_top _ _ Hw)) R))|].
           rewrite <- (proj2 (inworld_top _ _ Hw2)).
           exact (proj2 (proj2 (proj2 (proj2 (proj2 H)))) _ (prefix_refl _ _)).
        -- intros (-> & ->). eapply MResolve; eauto. discriminate.
        -- intros (-> & ->). eapply MDeep; eauto.
      * intros (-> & ->). eapply MParse; eauto.
        -- apply (parse_tokens_errors toks trailing oc cs OK); auto.
           apply (front_errors U Sn oc trailing gs cs V). change (front = Done (Err cs)).
           rewrite front_scans. unfold parse_with. rewrite T. exact P.
        -- apply (front_errors U Sn oc trailing gs cs V). change (front = Done (Err cs)).
           rewrite front_scans. unfold parse_with. rewrite T. exact P.
      * intros _. exfalso.
        destruct (front_total U Sn oc trailing gs V) as [(r & E)|[E _]]; [|congruence].
        change (front = Done r) in E. rewrite front_scans in E. unfold parse_with in E.
        rewrite T in E. cbn [obind] in E. congruence.
    + intros (-> & ->). eapply MScan; eauto.
    + intros (-> & ->). eapply MEndless; eauto.
Qed.

(** Every text has one fate. *)
Lemma one_fate : forall w s, inworld w s ->
  exists f w', means U trailing w gs f w' /\
    forall f2 w2, means U trailing w gs f2 w2 -> f2 = f /\ w2 = w'.
Proof.
  intros w s Hw.
  assert (E : exists f w', computed w s f w' /\ forall f2 w2, computed w s f2 w2 -> f2 = f /\ w2 = w').
  { unfold computed. destruct (front_total U Sn oc trailing gs V) as [(r & E)|[_ E]];
      change (DriverFacts.front U oc trailing gs) with front in E; rewrite E.
    - destruct r as [l|cs]; [|exists (Mistaken cs), w; auto].
      assert (C := call_exact l w s Hw).
      destruct (program_causes w l) as [[[|c cs] w1]|].
      + destruct C as (l' & s' & R & Hw'). exists (Understood l'), w1. split; eauto.
        intros f2 w2 (-> & l2 & s2 & R2 & ->). split; congruence.
      + exists (Mistaken (c :: cs)), w1. split; auto. intros f2 w2 [-> ->]. auto.
      + exists Deep, w. auto.
    - exists Endless, w. auto. }
  destruct E as (f & w' & C & X). exists f, w'. split; [now apply (means_computed w s)|].
  intros f2 w2 M. apply X. now apply (means_computed w s).
Qed.
(** What [run] does. *)
Lemma run_means : forall w s f w', inworld w s -> means U trailing w gs f w' ->
  match f with
  | Endless => run U oc s gs trailing = Diverged
  | Deep => exists why, run U oc s gs trailing = Panicked why
  | Mistaken cs => exists s', run U oc s gs trailing = Done (Err cs, s') /\ inworld w' s'
  | Understood l => exists s', run U oc s gs trailing = Done (Ok l, s') /\ inworld w' s'
  end.
Proof.
  intros w s f w' Hw M. apply (means_computed w s) in M; auto. unfold computed in M.
  unfold run. change (if trailing then _ else _) with front.
  destruct front as [[l|cs]| | |]; try contradiction; cbn [obind].
  - assert (C := call_exact l w s Hw). destruct (program_causes w l) as [[[|c cs] w1]|].
    + destruct M as (-> & l' & s' & R & ->). destruct C as (l2 & s2 & R2 & Hw').
      rewrite R in R2. injection R2 as <- <-. eauto.
    + destruct M as (-> & ->). exact C.
    + destruct M as (-> & ->). exact C.
  - destruct M as (-> & ->). eauto.
  - destruct M as (-> & ->). reflexivity.
Qed.
End Text.

Variable F : formats.

(** ** Files *)
Lemma new_done' : exists s, resolver_new = Done s /\ inworld new_world s.
Proof.
  destruct new_done as (s & E & _). exists s. split; auto. now apply new_inworld.
Qed.
Lemma file_means : forall name gs f w, valid_source gs -> means U false new_world gs f w ->
  file_ends F f (main_file U oc F name (Contents gs)).
Proof.
  intros name gs f w V M. destruct new_done' as (s & E & Hw). unfold main_file. rewrite E. cbn [obind].
  assert (R := run_means gs V false _ _ _ _ Hw M). unfold file_ends.
  destruct f as [|cs| |l].
  - now rewrite R.
  - destruct R as (s' & -> & _). cbn [print_result]. now rewrite error_lines_eq, <- cat_concat.
  - destruct R as (why & ->). eauto.
  - destruct R as (s' & -> & _). cbn [print_result]. now rewrite debug_program_data.
Qed.
Lemma file_whole : forall name gs, valid_source gs ->
  exists f, (exists w, means U false new_world gs f w) /\
    (forall f' w, means U false new_world gs f' w -> f' = f) /\
    file_ends F f (main_file U oc F name (Contents gs)).
Proof.
  intros name gs V. destruct new_done' as (s & E & Hw).
  destruct (one_fate gs V false _ _ Hw) as (f & w & M & X). exists f. split; [eauto|]. split.
  - intros f' w' M'. apply (X _ _ M').
  - eapply file_means; eauto.
Qed.

(** ** JavaScript *)
Lemma wasm_whole : forall gs f w, valid_source gs -> means U false new_world gs f w ->
  call_ends F f (parse_string U oc F gs).
Proof.
  intros gs f w V M. destruct new_done' as (s & E & Hw).
  assert (R := run_means gs V false _ _ _ _ Hw M). unfold run in R.
  unfold parse_string, call_ends. destruct (parse U oc gs) as [[l|cs]|why| |]; cbn [obind] in *.
  - rewrite (resolve_new s E l).
    destruct (resolver_resolve l s) as [[[l'|cs] s']|why| |]; destruct f; cbn [obind];
      try discriminate R; try (destruct R as (? & R & _); discriminate R);
      try (destruct R as (? & R); discriminate R).
    + destruct R as (? & R & _). injection R as -> ->. now rewrite js_program_data.
    + destruct R as (? & R & _). injection R as -> ->. now rewrite display_error_eq, cat_concat.
    + eauto.
    + reflexivity.
  - destruct f; try discriminate R; try (destruct R as (? & R & _); discriminate R);
      try (destruct R as (? & R); discriminate R).
    destruct R as (? & R & _). injection R as -> ->. now rewrite display_error_eq, cat_concat.
  - destruct f; try discriminate R; try (destruct R as (? & R & _); discriminate R). eauto.
  - destruct f; try discriminate R; try (destruct R as (? & R & _); discriminate R);
      try (destruct R as (? & R); discriminate R). reflexivity.
  - destruct f; try discriminate R; try (destruct R as (? & R & _); discriminate R);
      try (destruct R as (? & R); discriminate R).
Qed.

Lemma page_whole : forall gs f w, valid_source gs -> means U false new_world gs f w ->
  page_ends F f (on_change U oc F gs).
Proof.
  intros gs f w V M. pose proof (wasm_whole gs f w V M) as C. unfold on_change.
  destruct f as [|cs| |l]; cbn [call_ends page_ends] in *.
  - now rewrite C.
  - now rewrite C.
  - destruct C as (why & ->). now exists why.
  - rewrite C. cbn [obind]. eexists. split; [|reflexivity]. now apply page_text_iff.
Qed.

(** ** Sessions *)
Lemma dialogue_repl : forall l out err w, Forall valid_source l -> dialogue U F l out err w ->
  exists s, repl U oc F (map Line l) = Reading (mkReading out err s) /\ inworld w s.
Proof.
  intros l out err w V D. induction D as [|l out err w gs t w' D IH M|l out err w gs cs w' D IH M].
  - destruct new_done' as (s & E & Hw). exists s. split; auto.
    unfold repl, repl_start. cbn [map fold_left]. now rewrite E.
  - apply Forall_app in V. destruct V as [V V1]. inversion V1 as [|? ? Vg _]; subst.
    destruct (IH V) as (s & E & Hw). assert (R := run_means gs Vg true _ _ _ _ Hw M). cbn in R.
    destruct R as (s' & R & Hw'). exists s'. split; auto.
    rewrite map_app. cbn [map]. rewrite repl_snoc, E. cbn [repl_step]. unfold repl_read.
    cbn [r_resolver]. rewrite R. cbn [print_result r_out r_err]. now rewrite app_nil_s, debug_program_data.
  - apply Forall_app in V. destruct V as [V V1]. inversion V1 as [|? ? Vg _]; subst.
    destruct (IH V) as (s & E & Hw). assert (R := run_means gs Vg true _ _ _ _ Hw M). cbn in R.
    destruct R as (s' & R & Hw'). exists s'. split; auto.
    rewrite map_app. cbn [map]. rewrite repl_snoc, E. cbn [repl_step]. unfold repl_read.
    cbn [r_resolver]. rewrite R. cbn [print_result r_out r_err]. rewrite error_lines_eq, <- cat_concat. reflexivity.
Qed.
Lemma repl_dialogue : forall l r, Forall valid_source l -> repl U oc F (map Line l) = Reading r ->
  exists w, dialogue U F l (r_out r) (r_err r) w /\ inworld w (r_resolver r).
Proof.
  induction l as [|gs l IH] using rev_ind; intros r V H.
  - destruct new_done' as (s & E & Hw). unfold repl, repl_start in H. cbn [map fold_left] in H.
    rewrite E in H. injection H as <-. exists new_world. split; [constructor|auto].
  - apply Forall_app in V. destruct V as [V V1]. inversion V1 as [|? ? Vg _]; subst.
    rewrite map_app in H. cbn [map] in H. rewrite repl_snoc in H.
    destruct (repl U oc F (map Line l)) as [r0|p]; [|discriminate H].
    destruct (IH r0 V eq_refl) as (w & D & Hw).
    destruct (one_fate gs Vg true _ _ Hw) as (f & w' & M & _).
    assert (R := run_means gs Vg true _ _ _ _ Hw M). cbn [repl_step] in H. unfold repl_read in H.
    destruct f as [|cs| |t].
    + rewrite R in H. discriminate H.
    + destruct R as (s' & R & Hw'). rewrite R in H. cbn [print_result] in H. injection H as <-.
      exists w'. split; auto. cbn [r_out r_err r_resolver]. rewrite error_lines_eq, <- cat_concat.
      eapply DMistaken; eauto.
    + destruct R as (why & R). rewrite R in H. discriminate H.
    + destruct R as (s' & R & Hw'). rewrite R in H. cbn [print_result] in H. injection H as <-.
      exists w'. split; auto. cbn [r_out r_err r_resolver]. rewrite app_nil_s, debug_program_data.
      eapply DUnderstood; eauto.
Qed.
Lemma session_whole : forall l out err, Forall valid_source l ->
  ((exists w, dialogue U F l out err w) <->
   (exists s, repl U oc F (map Line l) = Reading (mkReading out err s))).
Proof.
  intros l out err V. split.
  - intros (w & D). destruct (dialogue_repl _ _ _ _ V D) as (s & E & _). eauto.
  - intros (s & E). destruct (repl_dialogue _ _ V E) as (w & D & _). eauto.
Qed.
Lemma session_line : forall l out err w gs, Forall valid_source l -> valid_source gs ->
  dialogue U F l out err w ->
  exists f, (exists w', means U true w gs f w') /\
    (forall f' w', means U true w gs f' w' -> f' = f) /\
    line_ends out err f (repl U oc F (map Line (l ++ [gs]))).
Proof.
  intros l out err w gs V Vg D. destruct (dialogue_repl _ _ _ _ V D) as (s & E & Hw).
  destruct (one_fate gs Vg true _ _ Hw) as (f & w' & M & X). exists f. split; [eauto|].
  split; [intros f' w2 M2; apply (X _ _ M2)|].
  assert (R := run_means gs Vg true _ _ _ _ Hw M). rewrite map_app. cbn [map]. rewrite repl_snoc, E.
  cbn [repl_step]. unfold repl_read. cbn [r_resolver]. destruct f as [|cs| |t]; cbn [line_ends].
  - rewrite R. reflexivity.
  - destruct R as (s' & R & _). rewrite R. cbn [print_result]. eauto.
  - destruct R as (why & R). rewrite R. eauto.
  - destruct R as (s' & R & _). rewrite R. cbn [print_result]. eauto.
Qed.
End Whole.

(** ** Builds *)
Lemma same_file : forall U F name f, sane U ->
  match f with Contents gs => valid_source gs | _ => True end ->
  main_file U true F name f = main_file U false F name f.
Proof.
  intros U F name [| |gs] Sn V; auto. unfold main_file, run.
  destruct (same_results U gs Sn V) as (E & _). now rewrite E.
Qed.
Lemma same_call : forall U F gs, sane U -> valid_source gs ->
  parse_string U true F gs = parse_string U false F gs.
Proof.
  intros U F gs Sn V. unfold parse_string. destruct (same_results U gs Sn V) as (E & _). now rewrite E.
Qed.
Lemma same_session : forall U F l, sane U -> Forall valid_read l ->
  repl U true F l = repl U false F l.
Proof.
  intros U F l Sn. induction l as [|i l IH] using rev_ind; intros V; auto.
  apply Forall_app in V. destruct V as [V Vi]. inversion Vi as [|? ? Vg _]; subst.
  rewrite !repl_snoc, (IH V). destruct (repl U false F l) as [r|p]; auto. cbn [repl_step].
  destruct i as [gs|e]; auto. unfold repl_read, run.
  destruct (same_results U gs Sn Vg) as (_ & E & _). now rewrite E.
Qed.

(** ** Both front ends *)
Lemma same_verdict : forall U oc F name gs, sane U -> valid_source gs ->
  exists f, file_ends F f (main_file U oc F name (Contents gs)) /\ call_ends F f (parse_string U oc F gs).
Proof.
  intros U oc F name gs Sn V. destruct (file_whole U Sn oc F name gs V) as (f & (w & M) & _ & E).
  exists f. split; auto. eapply wasm_whole; eauto.
Qed.
