(** Sessions of [Resolver::resolve] calls, and the facts behind the resolver
    properties. *)
From Verif Require Import Base F64 Token Ast AstInd Resolver SpecResolve ResolveStep ResolveSound
  ResolveInv ResolveNodes ResolveUnique.
From Coq Require Import Lia.

(** ** Sessions *)

(** The calls made on one resolver so far, with their results. *)
Inductive history : list (list stmt * result (list stmt) parse_error) -> rstate -> Prop :=
| history_new : forall s, resolver_new = Done s -> history nil s
| history_call : forall h s l r s',
    history h s -> resolver_resolve l s = Done (r, s') -> history (h ++ [(l, r)]) s'.

(** The global names known to the resolver, in slot order. *)
Definition global_scope (s : rstate) : scope := last (scopes s) nil.
Definition table (s : rstate) : list string := map fst (global_scope s).
(** The context in which the next call is resolved: what has been defined
    successfully, and what is still waiting for an initializer. *)
Definition in_state (d : defined_state) (s : rstate) : list string :=
  map fst (filter (fun xv => match d, v_state (snd xv) with
                             | DefinedVar, DefinedVar | DeclaredVar, DeclaredVar => true
                             | _, _ => false
                             end) (global_scope s)).
Definition context (s : rstate) : ctx :=
  mkCtx AtTop OutsideClass (in_state DeclaredVar s) nil (in_state DefinedVar s).
(** The context of a fresh resolver. *)
Definition start : ctx := mkCtx AtTop OutsideClass nil nil nil.

Definition top_state (s : rstate) : Prop :=
  exists g, s = mkR [g] NoFunction NoClass /\ tidy g.

(** ** One call *)
Lemma loop_acc : forall l done errs s,
  resolve_loop l done errs s =
  olet r <- resolve_loop l nil nil s ;;
  let '(d, e, s1) := r in Done (done ++ d, errs ++ e, s1).
Proof.
  induction l as [|st r IH]; intros done errs s; cbn [resolve_loop].
  - cbn. now rewrite !app_nil_r.
  - destruct (resolve_statement st s) as [st' s1|e s1|w]; auto.
    + rewrite IH, (IH ([] ++ [st'])). destruct (resolve_loop r [] [] s1) as [[[d e] s2]| | |]; cbn; auto.
      now rewrite <- app_assoc.
    + rewrite IH, (IH _ ([] ++ [e])). destruct (resolve_loop r [] [] s1) as [[[d e'] s2]| | |]; cbn; auto.
      now rewrite <- app_assoc.
Qed.
Lemma loop_app : forall a b s,
  resolve_loop (a ++ b) nil nil s =
  olet r <- resolve_loop a nil nil s ;;
  let '(d1, e1, s1) := r in
  olet q <- resolve_loop b nil nil s1 ;;
  let '(d2, e2, s2) := q in Done (d1 ++ d2, e1 ++ e2, s2).
Proof.
  induction a as [|st r IH]; intros b s; cbn [resolve_loop app].
  - cbn. destruct (resolve_loop b nil nil s) as [[[d e] s1]| | |]; reflexivity.
  - destruct (resolve_statement st s) as [st' s1|e s1|w]; auto.
    + rewrite loop_acc, (loop_acc r), IH.
      destruct (resolve_loop r nil nil s1) as [[[d e] s2]| | |]; cbn; auto.
      destruct (resolve_loop b nil nil s2) as [[[d2 e2] s3]| | |]; cbn; auto.
    + rewrite loop_acc, (loop_acc r), IH.
      destruct (resolve_loop r nil nil s1) as [[[d e'] s2]| | |]; cbn; auto.
      destruct (resolve_loop b nil nil s2) as [[[d2 e2] s3]| | |]; cbn; auto.
Qed.

(** Success of the loop is success of every statement. *)
Lemma loop_rmap : forall l s,
  match resolve_loop l nil nil s with
  | Done (l', nil, s') => rmap resolve_statement l s = ROk l' s'
  | Done (_, _ :: _, _) => match rmap resolve_statement l s with ROk _ _ => False | _ => True end
  | Panicked _ => match rmap resolve_statement l s with ROk _ _ => False | _ => True end
  | _ => False
  end.
Proof.
  induction l as [|st r IH]; intros s; cbn [resolve_loop rmap]; [reflexivity|].
  unfold rbind. destruct (resolve_statement st s) as [st' s1|e s1|w]; auto.
  - rewrite loop_acc. specialize (IH s1).
    destruct (resolve_loop r nil nil s1) as [[[d e] s2]|w| |]; cbn; auto.
    + destruct e; cbn; [now rewrite IH|]. destruct (rmap resolve_statement r s1); auto.
    + destruct (rmap resolve_statement r s1); auto.
  - rewrite loop_acc. specialize (IH s1).
    destruct (resolve_loop r nil nil s1) as [[[d e'] s2]|w| |]; cbn; auto.
Qed.
Lemma resolve_ok_iff : forall l s l' s',
  resolver_resolve l s = Done (Ok l', s') <-> rmap resolve_statement l s = ROk l' s'.
Proof.
  intros. unfold resolver_resolve. assert (H := loop_rmap l s).
  destruct (resolve_loop l nil nil s) as [[[d [|e es]] s1]|w| |]; cbn; try contradiction.
  - rewrite H. split; intros E; injection E as -> ->; reflexivity.
  - split; [discriminate|]. intros E. rewrite E in H. contradiction.
  - split; [discriminate|]. intros E. rewrite E in H. contradiction.
Qed.

Lemma loop_top : forall l s, top_state s ->
  match resolve_loop l nil nil s with
  | Done (_, _, s') => top_state s' /\ growsS (flat_map declared l) (global_scope s) (global_scope s')
  | _ => True
  end.
Proof.
  induction l as [|st r IH]; intros s Ht; cbn [resolve_loop].
  { split; auto. apply growsS_refl. }
  assert (K : forall s1, followsS (declared st) s s1 ->
     top_state s1 /\ growsS (declared st) (global_scope s) (global_scope s1)).
  { intros s1 ((F & C) & H). destruct Ht as (g & -> & T). cbn in *.
    destruct (scopes s1) as [|g' r'] eqn:E; [contradiction|]. destruct H as [H1 H2].
    inversion H2; subst. unfold global_scope. rewrite E. cbn. split; auto.
    exists g'. destruct s1; cbn in *; subst. split; auto. apply H1; auto. }
  assert (W : forall D D' a b, incl D D' -> growsS D a b -> growsS D' a b).
  { intros D D' a b I (P & T & U). repeat split; auto. }
  assert (L := proj1 resolver_keeps st (declared st) (incl_refl _) s).
  assert (I1 : incl (declared st) (flat_map declared (st :: r))) by (cbn; apply incl_appl, incl_refl).
  assert (I2 : incl (flat_map declared r) (flat_map declared (st :: r))) by (cbn; apply incl_appr, incl_refl).
  destruct (resolve_statement st s) as [st' s1|e s1|w]; auto.
  - destruct (K _ L) as [T1 G1]. rewrite loop_acc. specialize (IH s1 T1).
    destruct (resolve_loop r nil nil s1) as [[[d e] s2]| | |]; cbn; auto.
    destruct IH as [T2 G2]. split; auto. eapply growsS_trans; eauto.
  - destruct (K _ L) as [T1 G1]. rewrite loop_acc. specialize (IH s1 T1).
    destruct (resolve_loop r nil nil s1) as [[[d e'] s2]| | |]; cbn; auto.
    destruct IH as [T2 G2]. split; auto. eapply growsS_trans; eauto.
Qed.
Lemma resolve_top : forall l s r s', top_state s -> resolver_resolve l s = Done (r, s') ->
  top_state s' /\ growsS (flat_map declared l) (global_scope s) (global_scope s').
Proof.
  intros l s r s' Ht H. unfold resolver_resolve in H. assert (L := loop_top l s Ht).
  destruct (resolve_loop l nil nil s) as [[[d e] s1]| | |]; try discriminate. cbn in H.
  injection H as _ <-. exact L.
Qed.
Lemma new_top : forall s, resolver_new = Done s -> top_state s.
Proof.
  intros s H. injection H as <-. exists nil. split; [reflexivity|]. exists (fun _ => DefinedVar), nil.
  split; [reflexivity | constructor].
Qed.
Lemma history_top : forall h s, history h s -> top_state s.
Proof. induction 1; eauto using new_top. eapply resolve_top; eauto. Qed.

(** The state of a session agrees with its context. *)
Lemma in_state_layout : forall d st names k x, NoDup names ->
  In x (map fst (filter (fun xv => match d, v_state (snd xv) with
                             | DefinedVar, DefinedVar | DeclaredVar, DeclaredVar => true
                             | _, _ => false
                             end) (layout st k names))) <->
  In x names /\ st x = d /\ d <> UndefinedVar.
Proof.
  induction names as [|y r IH]; intros k x ND; cbn; [tauto|].
  inversion ND as [|? ? N1 N2]; subst. specialize (IH (S k) x N2).
  assert (N3 : y = x -> ~ In x r) by congruence.
  destruct d, (st y) eqn:E; cbn; rewrite ?IH; split; intros H;
    repeat match goal with
    | H : _ \/ _ |- _ => destruct H
    | H : _ /\ _ |- _ => destruct H
    end; subst; try tauto; try congruence;
    try (repeat split; auto; congruence).
Qed.
Lemma in_state_spec : forall d st names t k x, NoDup names -> d <> UndefinedVar ->
  In x (in_state d (mkR [layout st 0 names] t k)) <-> In x names /\ st x = d.
Proof.
  intros. unfold in_state, global_scope. cbn [scopes last].
  rewrite (in_state_layout d st names 0 x); tauto.
Qed.
Lemma context_agrees : forall s, top_state s ->
  agrees NoFunction (table s) nil (context s) s.
Proof.
  intros s (g & -> & st & names & -> & ND).
  assert (B := fun x => in_state_spec DeclaredVar st names NoFunction NoClass x ND ltac:(discriminate)).
  assert (D := fun x => in_state_spec DefinedVar st names NoFunction NoClass x ND ltac:(discriminate)).
  constructor; [|reflexivity|reflexivity|reflexivity|cbn; lia].
  unfold context. cbn [c_locals c_blocked c_globals].
  unfold table at 1. unfold global_scope at 1. cbn [scopes last].
  rewrite layout_names.
  set (bl := in_state DeclaredVar _) in *. set (df := in_state DefinedVar _) in *.
  change (layout st 0 names = layout (global_state bl df) 0 names /\ NoDup names /\ incl bl names /\ incl df names).
  repeat split; auto.
  - apply layout_ext. intros x Hx. unfold global_state.
    destruct (mem x bl) eqn:M1; [apply mem_In, B in M1; tauto|].
    destruct (mem x df) eqn:M2; [apply mem_In, D in M2; tauto|].
    apply mem_not in M1. apply mem_not in M2. rewrite B in M1. rewrite D in M2.
    destruct (st x) eqn:E; auto; exfalso; auto.
  - intros x Hx. apply B in Hx. tauto.
  - intros x Hx. apply D in Hx. tauto.
Qed.

Lemma stmts_meet_spec : forall l, Forall Ps l.
Proof. intros. apply Forall_forall. intros st _. apply resolver_meets_spec. Qed.

(** What success means. *)
Lemma program_ok : forall l s l' s', top_state s -> resolver_resolve l s = Done (Ok l', s') ->
  let c := context s in
  map erase l' = map erase l /\
  Forall allowed (program_nodes c l) /\ Forall depth_rule (program_nodes c l) /\
  table s' = add_all (table s) (flat_map mention (program_nodes c l)) /\
  (forall G, prefix (table s') G -> Forall (addressed G) (program_nodes c l')) /\
  agrees NoFunction (table s') nil (declare_names (flat_map declared l) c) s'.
Proof.
  intros l s l' s' Ht H c. assert (Ht' := proj1 (resolve_top _ _ _ _ Ht H)).
  apply resolve_ok_iff in H.
  assert (HC : calm c) by (intros F; cbn in F; congruence).
  specialize (gn_stmts l (stmts_meet_spec l) NoFunction nil c HC _ _ (context_agrees s Ht)).
  unfold good_nodes. rewrite H. intros (Ha & HQ).
  assert (ET : table s' = add_all (table s) (flat_map mention (thread nodes c l))).
  { destruct Ha as [Hs _ _ _ _]. unfold declare_names in Hs. cbn [context c_locals c] in Hs.
    cbn in Hs. destruct Ht' as (g & -> & _). cbn in Hs. destruct Hs as (-> & _).
    unfold table, global_scope. cbn [scopes last]. apply layout_names. }
  destruct (HQ _ (prefix_refl _ _)) as (F & E & _).
  split; [auto|]. split; [|split]; [|
    |split; [exact ET|split; [|rewrite ET; exact Ha]]].
  - eapply Forall_impl; [|exact F]. unfold fine. tauto.
  - eapply Forall_impl; [|exact F]. unfold fine. tauto.
  - intros G P. rewrite ET in P. destruct (HQ _ P) as (_ & _ & A). exact A.
Qed.

(** A blamed node breaks a rule. *)
Lemma repeated_dup : forall x l, repeated x l -> ~ NoDup l.
Proof.
  intros x l (a & b & d & ->) N. apply NoDup_remove_2 in N. apply N.
  apply in_or_app. right. apply in_or_app. right. now left.
Qed.
Lemma too_many_not : forall n, too_many n -> ~ (N.of_nat n <= scope_limit)%N.
Proof. unfold too_many. intros. lia. Qed.
Lemma blames_breaks : forall e cn, blames e cn -> allowed cn -> size_rule cn -> False.
Proof.
  intros e [c n] B (R & T & D & I & H) S.
  destruct n as [[]|[]|[]]; cbn in *; try contradiction.
  - destruct B as (x & l & [(P & _)|(P & _)]); [eapply repeated_dup | eapply too_many_not]; eauto.
  - destruct c0 as [x [[]|] ms l]; try contradiction. destruct B; auto.
  - destruct B as [(F & _)|(F & N & _)]; tauto.
  - destruct B as [(F & _)|(F & _)]; congruence.
  - destruct B as [(F & K & _)|(F & _)]; tauto.
  - destruct B as (x & l' & [(P & _)|(P & _)]); [eapply repeated_dup | eapply too_many_not]; eauto.
Qed.

(** A failing statement is blamed. *)
Lemma statement_err : forall st s e s', top_state s -> resolve_statement st s = RErr e s' ->
  Exists (blames e) (nodes (context s) st) \/
  (too_many (length (add_all (table s) (flat_map mention (nodes (context s) st)))) /\
   exists l x, e = cause_at l x "Too many local variables in function.").
Proof.
  intros st s e s' Ht H.
  assert (HC : calm (context s)) by (intros F; cbn in F; congruence).
  specialize (proj1 resolver_meets_spec st NoFunction nil (context s) HC _ _ (context_agrees s Ht)).
  unfold good_nodes. rewrite H. intros [F|[(sc & r & L & _)|F]]; auto. discriminate.
Qed.
Lemma statement_panic : forall st s w, top_state s -> resolve_statement st s = RPanic w ->
  (65534 < nesting st)%N.
Proof.
  intros st s w Ht H.
  assert (HC : calm (context s)) by (intros F; cbn in F; congruence).
  specialize (proj1 resolver_meets_spec st NoFunction nil (context s) HC _ _ (context_agrees s Ht)).
  unfold good_nodes. rewrite H. intros D.
  destruct (N.le_gt_cases (nesting st) 65534) as [L|L]; auto. exfalso.
  assert (F : Forall depth_rule (nodes (context s) st)).
  { apply nodes_depth; unfold depth; cbn; lia. }
  unfold deep in D. rewrite Exists_exists in D. destruct D as (cn & I & N).
  rewrite Forall_forall in F. auto.
Qed.

(** When a program is accepted. *)
Lemma program_valid : forall l s, top_state s ->
  let c := context s in
  Forall allowed (program_nodes c l) -> Forall size_rule (program_nodes c l) ->
  Forall (fun st => (nesting st <= 65534)%N) l ->
  (N.of_nat (length (add_all (table s) (flat_map mention (program_nodes c l)))) <= scope_limit)%N ->
  exists l' s', resolver_resolve l s = Done (Ok l', s').
Proof.
  intros l s Ht c HA HS HN HT.
  assert (HC : calm c) by (intros F; cbn in F; congruence).
  specialize (gn_stmts l (stmts_meet_spec l) NoFunction nil c HC _ _ (context_agrees s Ht)).
  destruct (rmap resolve_statement l s) as [l' s'|e s'|w] eqn:E.
  - intros _. exists l', s'. now apply resolve_ok_iff.
  - intros [F|[(sc & r & L & _)|(T & _)]]; exfalso.
    + unfold faulty in F. rewrite Exists_exists in F. destruct F as (cn & I & B).
      rewrite Forall_forall in HA, HS. eapply blames_breaks; eauto.
    + discriminate L.
    + eapply too_many_not; eauto.
  - intros D. exfalso. unfold deep in D. rewrite Exists_exists in D. destruct D as (cn & I & N).
    assert (F : Forall depth_rule (thread nodes c l)).
    { assert (X : Forall (fun st => forall c, (depth c <= 65534)%N ->
        (Forall depth_rule (nodes c st) <-> (depth c + nesting st <= 65534)%N)) l).
      { apply Forall_forall. intros st _. apply nodes_depth. }
      apply shallow_thread; auto; unfold depth; cbn; [lia|].
      clear -HN. induction HN; cbn; lia. }
    rewrite Forall_forall in F. auto.
Qed.

Lemma program_no_panic : forall l s, top_state s ->
  Forall (fun st => (nesting st <= 65534)%N) l ->
  exists r s', resolver_resolve l s = Done (r, s').
Proof.
  intros l s Ht HN.
  assert (H : exists r, resolve_loop l nil nil s = Done r).
  { revert s Ht. induction HN as [|st r H1 H2 IH]; intros s Ht; cbn [resolve_loop]; [eauto|].
    assert (L := loop_top [st] s Ht). cbn [resolve_loop] in L.
    destruct (resolve_statement st s) as [st' s1|e s1|w] eqn:E.
    - rewrite loop_acc. destruct (IH s1 (proj1 L)) as [[[d e] s2] ->]. cbn. eauto.
    - rewrite loop_acc. destruct (IH s1 (proj1 L)) as [[[d e'] s2] ->]. cbn. eauto.
    - apply statement_panic in E; auto. lia. }
  unfold resolver_resolve. destruct H as [[[d e] s1] ->]. cbn. eauto.
Qed.

Lemma nesting_accepted : forall l s l' s', top_state s -> resolver_resolve l s = Done (Ok l', s') ->
  Forall (fun st => (nesting st <= 65534)%N) l.
Proof.
  intros l s l' s' Ht H. apply program_ok in H; auto. destruct H as (_ & _ & D & _).
  assert (X : Forall (fun st => forall c, (depth c <= 65534)%N ->
    (Forall depth_rule (nodes c st) <-> (depth c + nesting st <= 65534)%N)) l).
  { apply Forall_forall. intros st _. apply nodes_depth. }
  apply shallow_thread in D; auto; [|unfold depth; cbn; lia].
  unfold depth in D. cbn in D. clear -D. induction l; constructor; cbn in D; [lia|].
  apply IHl. cbn. lia.
Qed.

(** ** Sessions *)
Lemma context_sim : forall s, sim (context s) start.
Proof. repeat split. Qed.
Lemma program_ok_start : forall l s l' s', top_state s -> resolver_resolve l s = Done (Ok l', s') ->
  Forall return_rule (program_nodes start l) /\
  Forall this_rule (program_nodes start l) /\
  Forall redeclaration_rule (program_nodes start l) /\
  Forall inheritance_rule (program_nodes start l) /\
  Forall initializer_rule (program_nodes (context s) l) /\
  (forall G, prefix (table s') G -> Forall (addressed G) (program_nodes start l')).
Proof.
  intros l s l' s' Ht H. apply program_ok in H; auto. destruct H as (_ & A & _ & _ & R & _).
  assert (S := program_alike l _ _ (context_sim s)).
  assert (S' := program_alike l' _ _ (context_sim s)).
  repeat split.
  - eapply Forall_alike; [apply return_alike|exact S|]. eapply Forall_impl; [|exact A]. unfold allowed; tauto.
  - eapply Forall_alike; [apply this_alike|exact S|]. eapply Forall_impl; [|exact A]. unfold allowed; tauto.
  - eapply Forall_alike; [apply redeclaration_alike|exact S|]. eapply Forall_impl; [|exact A]. unfold allowed; tauto.
  - eapply Forall_alike; [apply inheritance_alike|exact S|]. eapply Forall_impl; [|exact A]. unfold allowed; tauto.
  - eapply Forall_impl; [|exact A]. unfold allowed; tauto.
  - intros G P. eapply Forall_alike; [apply addressed_alike|exact S'|]. auto.
Qed.

Lemma table_grows : forall l s r s', top_state s -> resolver_resolve l s = Done (r, s') ->
  prefix (table s) (table s').
Proof. intros l s r s' Ht H. apply resolve_top in H; auto. apply H. Qed.
Lemma table_nodup : forall s, top_state s -> NoDup (table s).
Proof.
  intros s (g & -> & st & names & -> & ND). unfold table, global_scope. cbn.
  now rewrite layout_names.
Qed.

(** All trees of a session use one table of global slots. *)
Lemma one_table : forall h s, history h s ->
  forall l l' G, In (l, Ok l') h -> prefix (table s) G ->
  Forall (addressed G) (program_nodes start l').
Proof.
  induction 1 as [s H|h s l r s' Hh IH H]; intros l0 l' G I P; [destruct I|].
  assert (Ht := history_top _ _ Hh).
  apply in_app_or in I. destruct I as [I|[E|[]]].
  - eapply IH; eauto. eapply prefix_trans; [|exact P]. eapply table_grows; eauto.
  - injection E as -> ->. eapply program_ok_start; eauto.
Qed.

(** ** Blocked names *)
Lemma blocked_iff : forall s x, top_state s ->
  In x (c_blocked (context s)) <->
  exists i, scope_get (global_scope s) x = Some (mkVar i DeclaredVar).
Proof.
  intros s x (g & -> & st & names & -> & ND). cbn [context c_blocked].
  rewrite in_state_spec by (auto; discriminate).
  unfold global_scope. cbn [scopes last].
  destruct (get_layout st x names 0) as [(j & FA & EG)|(N & EG)]; rewrite EG.
  - split; [intros (_ & ->); eauto|]. intros (i & E). injection E as _ E. eauto using first_at_In.
  - split; [tauto|]. intros (i & E). discriminate.
Qed.
(** Only a declaration at top level unblocks a name. *)
Lemma stays_blocked : forall l s r s' x, top_state s -> resolver_resolve l s = Done (r, s') ->
  In x (c_blocked (context s)) -> ~ In x (flat_map declared l) ->
  In x (c_blocked (context s')).
Proof.
  intros l s r s' x Ht H B N. apply resolve_top in H; auto. destruct H as (Ht' & _ & _ & U).
  apply blocked_iff in B; auto. destruct B as (i & E).
  apply blocked_iff; eauto.
Qed.
(** Reading a blocked name at top level. *)
Lemma blocked_read : forall s x v l, top_state s -> In x (c_blocked (context s)) ->
  x <> "this" ->
  resolver_resolve [SExpression (EVariable x v l)] s =
  Done (Err [cause_at l x "Cannot read local variable in its own initializer."], s).
Proof.
  intros s x v l Ht B N. apply blocked_iff in B; auto. destruct B as (i & E).
  destruct Ht as (g & -> & T). unfold global_scope in E. cbn in E.
  unfold resolver_resolve. cbn [resolve_loop resolve_statement resolve_expression].
  unfold rbind, check_this, rget, rbind. cbn [class_type].
  destruct (String.eqb_spec x "this") as [|_]; [contradiction|].
  unfold rret, check_own_initializer. cbn [scopes]. rewrite E. reflexivity.
Qed.
(** A failed initializer leaves the name blocked. *)
Lemma failed_blocks : forall x i e l s c s', top_state s ->
  ~ In x (c_globals (context s)) ->
  resolve_statement (SVar x i e l) s = RErr c s' ->
  c_message c <> "Too many local variables in function." ->
  In x (c_blocked (context s')).
Proof.
  intros x i e l s c s' Ht NG H NM.
  assert (Ht' : top_state s').
  { assert (L := loop_top [SVar x i e l] s Ht). cbn [resolve_loop] in L. rewrite H in L. apply L. }
  assert (HC : calm (context s)) by (intros F; cbn in F; congruence).
  cbn [resolve_statement] in H. unfold rbind at 1 in H.
  assert (HD := good_declare NoFunction nil (context s) x l HC _ _ (context_agrees s Ht)).
  destruct (declare x l s) as [k s1|c1 s1|w] eqn:ED.
  2:{ exfalso. injection H as -> ->. destruct HD as [[]|[(sc & r & L & _)|(_ & l1 & y & E)]]; [discriminate|].
      subst c. apply NM. reflexivity. }
  2:{ discriminate. }
  destruct HD as [Ha1 _]. unfold rbind at 1 in H.
  assert (KE := proj1 (proj2 resolver_keeps) e s1).
  assert (Hg : exists g1 j, scopes s1 = [g1] /\ scope_get g1 x = Some (mkVar j DeclaredVar)).
  { destruct Ha1 as [Hs _ _ _ _]. unfold initialising in Hs.
    assert (M : mem x (known (context s)) = false) by (now apply mem_not).
    rewrite M in Hs. cbn [c_locals] in Hs. change (c_locals (context s)) with (@nil (list string)) in Hs.
    apply stack_nil in Hs. destruct Hs as (b & Eb & Es & ND & I1 & _). injection Eb as <-.
    match type of Es with _ = [layout ?st 0 ?G] =>
      destruct (get_layout st x G 0) as [(j & FA & EG)|(N & _)] end; [|exfalso; apply N, I1; now left].
    eexists _, j. split; [exact Es|]. rewrite EG. unfold global_state. cbn [c_blocked].
    rewrite mem_cons, String.eqb_refl. reflexivity. }
  destruct Hg as (g1 & j & Es1 & Eg1).
  assert (Fin : forall s2, followsE s1 s2 -> exists g2, scopes s2 = [g2] /\
                 scope_get g2 x = Some (mkVar j DeclaredVar)).
  { intros s2 (_ & F). rewrite Es1 in F. inversion F as [|? g2 ? ? G2 F2]; subst. inversion F2; subst.
    exists g2. split; auto. destruct G2 as (r & -> & _). now apply scope_get_app. }
  destruct (resolve_expression e s1) as [e' s2|c2 s2|w] eqn:EE; [|injection H as -> ->|discriminate].
  - exfalso. unfold rbind in H. destruct (Fin _ KE) as (g2 & Es2 & Eg2).
    unfold define in H. rewrite Es2 in H. unfold rbind in H.
    destruct (limit_cases (length g2) x l s2) as [E|[_ E]]; rewrite E in H.
    + unfold is_in_global_scope in H. cbn [set_scopes scopes length] in H.
      cbn [Nat.eqb negb] in H. rewrite andb_false_r in H. discriminate.
    + injection H as <- _. apply NM. reflexivity.
  - destruct (Fin _ KE) as (g2 & Es2 & Eg2). apply blocked_iff; auto.
    unfold global_scope. rewrite Es2. cbn. eauto.
Qed.
