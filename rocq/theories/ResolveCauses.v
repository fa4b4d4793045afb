(** Calls and sessions of the resolver give exactly the errors of SpecCheck.v. *)
From Verif Require Import Base F64 Token Ast AstInd Resolver SpecResolve SpecCheck
  ResolveStep ResolveSound ResolveFinal ResolveProps ResolveExact.
From Coq Require Import Lia.

(** ** One call *)
Definition inworld (w : world) (s : rstate) : Prop := agrees NoFunction (w_table w) nil (top w) s.

Lemma holds_inworld : forall w w' s s', inworld w s -> holds w' s' -> undone s s' -> inworld w' s'.
Proof.
  intros w w' s s' [S F _ C D] (L & N & B & K) (U1 & U2 & U3).
  apply stack_length in S. cbn in S.
  destruct s' as [scs ft ct]. cbn [scopes function_type class_type] in *. subst.
  destruct scs as [|g [|g2 r]]; cbn in U1; rewrite S in U1; try discriminate.
  constructor; cbn; auto. lia.
Qed.

(** One statement. *)
Lemma statement_exact : forall st w s, inworld w s ->
  match run_checks w (checks (top w) st) with
  | (Some TooDeep, _) => exists why, resolve_statement st s = RPanic why
  | (Some (Error e), w') => exists s', resolve_statement st s = RErr e s' /\ inworld w' s'
  | (None, w') => exists st' s', resolve_statement st s = ROk st' s' /\ inworld w' s'
  end.
Proof.
  intros st w s Hw.
  assert (H := proj1 resolver_exact st NoFunction nil (top w) ltac:(intros F; exfalso; now apply F) _ _ Hw).
  replace (world_in (w_table w) nil (top w)) with w in H by (destruct w; reflexivity).
  destruct (run_checks w (checks (top w) st)) as [[[e|]|] w']; auto.
  - destruct H as (s' & E & Hh & U). exists s'. split; auto. eapply holds_inworld; eauto.
  - destruct H as (st' & s' & E & Ha & Ew). exists st', s'. split; auto. unfold inworld.
    assert (ET : top w' = declare_names (declared st) (top w)).
    { rewrite Ew. reflexivity. }
    rewrite ET. exact Ha.
Qed.

(** A call. *)
Lemma loop_exact : forall l w s, inworld w s ->
  match program_causes w l with
  | None => exists why, resolve_loop l nil nil s = Panicked why
  | Some (es, w') => exists l' s', resolve_loop l nil nil s = Done (l', es, s') /\ inworld w' s'
  end.
Proof.
  induction l as [|st r IH]; intros w s Hw; cbn [program_causes resolve_loop]; [eauto|].
  assert (H := statement_exact st w s Hw).
  destruct (run_checks w (checks (top w) st)) as [[[e|]|] w1].
  - destruct H as (s1 & E & H1). rewrite E, loop_acc. specialize (IH _ _ H1).
    destruct (program_causes w1 r) as [[es w2]|].
    + destruct IH as (l' & s2 & -> & H2). cbn. eauto.
    + destruct IH as (why & ->). cbn. eauto.
  - destruct H as (why & ->). eauto.
  - destruct H as (st' & s1 & E & H1). rewrite E, loop_acc. specialize (IH _ _ H1).
    destruct (program_causes w1 r) as [[es w2]|].
    + destruct IH as (l' & s2 & -> & H2). cbn. eauto.
    + destruct IH as (why & ->). cbn. eauto.
Qed.

(** The errors in a result. *)
Definition errors_of {A} (r : result A parse_error) : list cause :=
  match r with Ok _ => nil | Err es => es end.

Lemma call_exact : forall l w s, inworld w s ->
  match program_causes w l with
  | None => exists why, resolver_resolve l s = Panicked why
  | Some (nil, w') => exists l' s', resolver_resolve l s = Done (Ok l', s') /\ inworld w' s'
  | Some (es, w') => exists s', resolver_resolve l s = Done (Err es, s') /\ inworld w' s'
  end.
Proof.
  intros l w s Hw. assert (H := loop_exact l w s Hw). unfold resolver_resolve.
  destruct (program_causes w l) as [[[|e es] w']|].
  - destruct H as (l' & s' & -> & H). cbn. eauto.
  - destruct H as (l' & s' & -> & H). cbn. eauto.
  - destruct H as (why & ->). cbn. eauto.
Qed.

Lemma new_inworld : forall s, resolver_new = Done s -> inworld new_world s.
Proof.
  intros s H. injection H as <-. constructor; cbn; auto; [|lia].
  repeat split; auto; try constructor; intros x [].
Qed.

Lemma resolve_exact : forall l,
  match program_causes new_world l with
  | None => exists why, resolve l = Panicked why
  | Some (nil, _) => exists l', resolve l = Done (Ok l')
  | Some (es, _) => resolve l = Done (Err es)
  end.
Proof.
  intros l. unfold resolve. destruct resolver_new as [s| | |] eqn:N; try discriminate. cbn [obind].
  assert (H := call_exact l _ _ (new_inworld s N)).
  destruct (program_causes new_world l) as [[[|e es] w']|].
  - destruct H as (l' & s' & -> & H). cbn. eauto.
  - destruct H as (s' & -> & H). reflexivity.
  - destruct H as (why & ->). cbn. eauto.
Qed.

(** ** Sessions *)
Lemma session_app : forall a b w,
  session_causes w (a ++ b) =
  match session_causes w a with
  | Some (x, w1) => match session_causes w1 b with
                    | Some (y, w2) => Some (x ++ y, w2)
                    | None => None
                    end
  | None => None
  end.
Proof.
  induction a as [|p a IH]; intros b w; cbn.
  - destruct (session_causes w b) as [[y w2]|]; reflexivity.
  - destruct (program_causes w p) as [[es w1]|]; auto. rewrite IH.
    destruct (session_causes w1 a) as [[x w2]|]; auto.
    destruct (session_causes w2 b) as [[y w3]|]; auto.
Qed.
Lemma history_exact : forall h s, history h s ->
  exists w, session_causes new_world (map fst h) = Some (map (fun p => errors_of (snd p)) h, w) /\
            inworld w s.
Proof.
  induction 1 as [s N|h s l r s' Hh IH H].
  - exists new_world. split; auto. now apply new_inworld.
  - destruct IH as (w & E & Hw). assert (C := call_exact l w s Hw).
    rewrite !map_app, session_app, E. cbn.
    destruct (program_causes w l) as [[[|e es] w']|].
    + destruct C as (l' & s1 & E1 & Hw'). rewrite E1 in H. injection H as <- <-. eauto.
    + destruct C as (s1 & E1 & Hw'). rewrite E1 in H. injection H as <- <-. eauto.
    + destruct C as (why & E1). rewrite E1 in H. discriminate.
Qed.
Lemma session_exists : forall ps w ess, session_causes new_world ps = Some (ess, w) ->
  exists h s, history h s /\ map fst h = ps /\ map (fun p => errors_of (snd p)) h = ess /\ inworld w s.
Proof.
  induction ps as [|p ps IH] using rev_ind; intros w ess H.
  - injection H as <- <-. destruct resolver_new as [s| | |] eqn:N; try discriminate.
    exists nil, s. split; [now constructor|]. split; auto. split; auto. now apply new_inworld.
  - rewrite session_app in H.
    destruct (session_causes new_world ps) as [[x w1]|]; [|discriminate].
    specialize (IH _ _ eq_refl). destruct IH as (h & s & Hh & E1 & E2 & Hw).
    assert (C := call_exact p w1 s Hw). cbn in H.
    destruct (program_causes w1 p) as [[es w']|]; [|discriminate]. injection H as <- <-.
    destruct es as [|e es].
    + destruct C as (l' & s1 & E & Hw'). exists (h ++ [(p, Ok l')]), s1.
      rewrite !map_app, E1, E2. split; [econstructor; eauto|auto].
    + destruct C as (s1 & E & Hw'). exists (h ++ [(p, Err (e :: es))]), s1.
      rewrite !map_app, E1, E2. split; [econstructor; eauto|auto].
Qed.
Lemma session_exact : forall ps ess,
  (exists w, session_causes new_world ps = Some (ess, w)) <->
  (exists h s, history h s /\ map fst h = ps /\ map (fun p => errors_of (snd p)) h = ess).
Proof.
  intros ps ess. split.
  - intros (w & H). destruct (session_exists _ _ _ H) as (h & s & H1 & H2 & H3 & _). eauto.
  - intros (h & s & H1 & <- & <-). destruct (history_exact _ _ H1) as (w & H & _). eauto.
Qed.
(** What a session leaves in the global scope. *)
Lemma session_globals : forall h s, history h s ->
  exists ess w, session_causes new_world (map fst h) = Some (ess, w) /\
  table s = w_table w /\ (forall x, In x (c_blocked (context s)) <-> In x (w_blocked w)).
Proof.
  intros h s H. destruct (history_exact _ _ H) as (w & E & Hw). eexists _, w. split; [exact E|].
  destruct Hw as [S _ _ _ _]. cbn in S.
  destruct (history_top _ _ H) as (g & -> & T). cbn in S. destruct S as (-> & N & B & K).
  split.
  - unfold table, global_scope. cbn. apply layout_names.
  - intros x. cbn [context c_blocked].
    rewrite (in_state_spec DeclaredVar _ (w_table w) _ _ x N ltac:(discriminate)).
    unfold global_state. split.
    + intros [_ G]. destruct (mem x (w_blocked w)) eqn:M; [now apply mem_In|].
      destruct (mem x (w_known w)); discriminate.
    + intros I. split; [now apply B|]. apply mem_In in I. now rewrite I.
Qed.
