(** The resolver properties, derived from [program_ok], [statement_err] and the
    like. *)
From Verif Require Import Base F64 Token Ast AstInd Resolver SpecResolve ResolveStep ResolveSound
  ResolveInv ResolveNodes ResolveUnique ResolveFinal.
From Coq Require Import Lia.

(** ** Statement by statement (C45, C46) *)

(** The outcome of resolving one statement in its own call. *)
Definition single (r : result stmt cause) : result (list stmt) parse_error :=
  match r with Ok st => Ok [st] | Err e => Err [e] end.
Inductive separately : rstate -> list stmt -> list (result stmt cause) -> rstate -> Prop :=
| sep_nil : forall s, separately s nil nil s
| sep_cons : forall s st r s1 l rs s2,
    resolver_resolve [st] s = Done (single r, s1) -> separately s1 l rs s2 ->
    separately s (st :: l) (r :: rs) s2.
Definition causes (rs : list (result stmt cause)) : list cause :=
  flat_map (fun r => match r with Ok _ => nil | Err e => [e] end) rs.
Definition trees (rs : list (result stmt cause)) : list stmt :=
  flat_map (fun r => match r with Ok st => [st] | Err _ => nil end) rs.
Definition verdict (rs : list (result stmt cause)) : result (list stmt) parse_error :=
  match causes rs with nil => Ok (trees rs) | es => Err es end.

Lemma single_statement : forall st s r s1,
  resolver_resolve [st] s = Done (single r, s1) <->
  match r with Ok st' => resolve_statement st s = ROk st' s1
             | Err e => resolve_statement st s = RErr e s1 end.
Proof.
  intros st s r s1. unfold resolver_resolve. cbn [resolve_loop].
  destruct (resolve_statement st s) as [st' s2|e s2|w]; destruct r; cbn;
    split; intros E; try discriminate; try (injection E as -> ->); reflexivity.
Qed.
Lemma loop_separately : forall l s d es s',
  resolve_loop l nil nil s = Done (d, es, s') <->
  exists rs, separately s l rs s' /\ d = trees rs /\ es = causes rs.
Proof.
  induction l as [|st l IH]; intros s d es s'; cbn [resolve_loop].
  - split.
    + intros E. injection E as <- <- <-. exists nil. repeat split. constructor.
    + intros (rs & H & -> & ->). inversion H; subst. reflexivity.
  - destruct (resolve_statement st s) as [st' s1|e s1|w] eqn:E.
    + rewrite loop_acc. split.
      * destruct (resolve_loop l nil nil s1) as [[[d1 e1] s2]| | |] eqn:EL; try discriminate.
        cbn. intros X. injection X as <- <- <-. apply IH in EL. destruct EL as (rs & H & -> & ->).
        exists (Ok st' :: rs). repeat split. econstructor; [|exact H]. now apply single_statement.
      * intros (rs & H & -> & ->). inversion H as [|? ? r ? ? rs' ? H1 H2]; subst.
        apply single_statement in H1. destruct r; rewrite E in H1; [|discriminate].
        injection H1 as <- <-. assert (X : exists rs, separately s1 l rs s' /\ trees rs' = trees rs /\
           causes rs' = causes rs) by eauto.
        apply IH in X. rewrite X. reflexivity.
    + rewrite loop_acc. split.
      * destruct (resolve_loop l nil nil s1) as [[[d1 e1] s2]| | |] eqn:EL; try discriminate.
        cbn. intros X. injection X as <- <- <-. apply IH in EL. destruct EL as (rs & H & -> & ->).
        exists (Err e :: rs). repeat split. econstructor; [|exact H]. now apply single_statement.
      * intros (rs & H & -> & ->). inversion H as [|? ? r ? ? rs' ? H1 H2]; subst.
        apply single_statement in H1. destruct r; rewrite E in H1; [discriminate|].
        injection H1 as <- <-. assert (X : exists rs, separately s1 l rs s' /\ trees rs' = trees rs /\
           causes rs' = causes rs) by eauto.
        apply IH in X. rewrite X. reflexivity.
    + split; [discriminate|]. intros (rs & H & -> & ->). inversion H as [|? ? r ? ? rs' ? H1 H2]; subst.
      apply single_statement in H1. destruct r; rewrite E in H1; discriminate.
Qed.
Lemma resolve_separately : forall l s r s',
  resolver_resolve l s = Done (r, s') <->
  exists rs, separately s l rs s' /\ r = verdict rs.
Proof.
  intros l s r s'. unfold resolver_resolve.
  split.
  - destruct (resolve_loop l nil nil s) as [[[d es] s1]| | |] eqn:E; try discriminate. cbn.
    intros X. injection X as <- <-. apply loop_separately in E. destruct E as (rs & H & -> & ->).
    exists rs. split; auto. unfold verdict. destruct (causes rs); auto.
  - intros (rs & H & ->). assert (X : resolve_loop l nil nil s = Done (trees rs, causes rs, s'))
      by (apply loop_separately; eauto). rewrite X. cbn. unfold verdict. destruct (causes rs); auto.
Qed.

(** The verdict on two parts. *)
Definition both (a b : result (list stmt) parse_error) : result (list stmt) parse_error :=
  match a, b with
  | Ok x, Ok y => Ok (x ++ y)
  | Ok _, Err e => Err e
  | Err e, Ok _ => Err e
  | Err e, Err f => Err (e ++ f)
  end.
Lemma resolve_pieces : forall a b s,
  resolver_resolve (a ++ b) s =
  olet x <- resolver_resolve a s ;;
  olet y <- resolver_resolve b (snd x) ;;
  Done (both (fst x) (fst y), snd y).
Proof.
  intros a b s. unfold resolver_resolve. rewrite loop_app.
  destruct (resolve_loop a nil nil s) as [[[d1 e1] s1]| | |]; cbn; auto.
  destruct (resolve_loop b nil nil s1) as [[[d2 e2] s2]| | |]; cbn; auto.
  destruct e1, e2; cbn; auto; rewrite ?app_nil_r; auto.
Qed.

(** ** Errors *)
Lemma cause_origin : forall l s es s' e, resolver_resolve l s = Done (Err es, s') -> In e es ->
  exists a st b ra sa sb, l = a ++ st :: b /\ resolver_resolve a s = Done (ra, sa) /\
    resolver_resolve [st] sa = Done (Err [e], sb).
Proof.
  intros l s es s' e H I. apply resolve_separately in H. destruct H as (rs & H & E).
  assert (IC : In e (causes rs)).
  { unfold verdict in E. destruct (causes rs); [discriminate|]. now injection E as <-. }
  clear E I es. induction H as [|s st r s1 l rs s2 H1 H2 IH]; [destruct IC|].
  cbn in IC. apply in_app_or in IC. destruct IC as [IC|IC].
  - destruct r as [|e']; [destruct IC|]. destruct IC as [->|[]].
    exists nil, st, l, (Ok nil), s, s1. repeat split; auto.
  - destruct (IH IC) as (a & st' & b & ra & sa & sb & -> & Ha & He).
    exists (st :: a), st', b, (both (single r) ra), sa, sb. repeat split; auto.
    change (st :: a) with ([st] ++ a). rewrite resolve_pieces, H1. cbn. rewrite Ha. reflexivity.
Qed.
Definition overflow (s : rstate) (st : stmt) (e : cause) : Prop :=
  too_many (length (add_all (table s) (flat_map mention (nodes (context s) st)))) /\
  exists l x, e = cause_at l x "Too many local variables in function.".
Lemma single_err : forall st s e s', top_state s -> resolver_resolve [st] s = Done (Err [e], s') ->
  Exists (blames e) (nodes (context s) st) \/ overflow s st e.
Proof.
  intros st s e s' Ht H. apply (single_statement st s (Err e)) in H. eapply statement_err; eauto.
Qed.

(** Top-level contexts do not matter for the rules about functions, classes
    and local scopes. *)
Lemma thread_in : forall l c a st b cn, l = a ++ st :: b ->
  In cn (nodes (declare_names (flat_map declared a) c) st) -> In cn (program_nodes c l).
Proof.
  intros l c a. revert l c. induction a as [|st' a IH]; intros l c st b cn -> H.
  - cbn in *. rewrite declare_none in H. apply in_or_app. now left.
  - cbn in H. rewrite declare_app in H. cbn. apply in_or_app. right.
    eapply IH; [reflexivity|]. exact H.
Qed.
Lemma broken_at_top : forall (P : ctx * node -> Prop) l a st b c,
  (forall x y, alike x y -> P x -> P y) ->
  l = a ++ st :: b -> sim c start -> Exists (fun cn => ~ P cn) (nodes c st) ->
  Exists (fun cn => ~ P cn) (program_nodes start l).
Proof.
  intros P l a st b c HP E Sc H.
  set (c2 := declare_names (flat_map declared a) start).
  assert (S2 : sim c c2) by (destruct Sc as (F & K & L); repeat split; auto).
  assert (A := proj1 nodes_alike st _ _ S2).
  assert (HX : Exists (fun cn => ~ P cn) (nodes c2 st)).
  { clear -A H HP. induction A as [|x y l1 l2 A1 A2 IH]; inversion H; subst.
    - left. intros Py. apply H1. eapply HP; [|exact Py]. destruct A1 as [Q1 Q2].
      split; [now apply sim_sym | auto].
    - right. auto. }
  rewrite Exists_exists in HX |- *. destruct HX as (cn & I & N). exists cn. split; auto.
  eapply thread_in; eauto.
Qed.

Definition about (M : string) (P : ctx * node -> Prop) : Prop :=
  forall e cn, blames e cn -> c_message e = M -> ~ P cn.
Lemma message_origin : forall M P l s es s' e, top_state s -> about M P ->
  (forall x y, alike x y -> P x -> P y) ->
  M <> "Too many local variables in function." ->
  resolver_resolve l s = Done (Err es, s') -> In e es -> c_message e = M ->
  Exists (fun cn => ~ P cn) (program_nodes start l).
Proof.
  intros M P l s es s' e Ht HA HP NM H I EM.
  destruct (cause_origin _ _ _ _ _ H I) as (a & st & b & ra & sa & sb & E & Ha & He).
  assert (Hta := proj1 (resolve_top _ _ _ _ Ht Ha)).
  destruct (single_err _ _ _ _ Hta He) as [B|(_ & l1 & x & ->)]; [|cbn in EM; congruence].
  apply (broken_at_top P l a st b (context sa)); auto; [apply context_sim|].
  rewrite Exists_exists in B |- *. destruct B as (cn & I1 & B). exists cn. split; auto. eapply HA; eauto.
Qed.
Ltac about_tac :=
  intros e [c n] B EM P; destruct n as [[]|[]|[]]; cbn in *; try contradiction;
  repeat match goal with
  | H : scope_error _ _ |- _ => destruct H as (?x & ?l & [(?H & ->)|(?H & ->)])
  | H : match ?d with _ => _ end |- _ => destruct d; try contradiction
  | H : _ \/ _ |- _ => destruct H
  | H : _ /\ _ |- _ => destruct H
  end; subst; cbn in *; try discriminate; try congruence; eauto using repeated_dup;
  try (eapply repeated_dup; eassumption).
Lemma about_return_top : about "Cannot return from top-level code." return_rule.
Proof. about_tac; intuition congruence. Qed.
Lemma about_return_init : about "Cannot return a value from an initializer." return_rule.
Proof. about_tac; intuition congruence. Qed.
Lemma about_this : about "Cannot use 'this' outside of a class." this_rule.
Proof. about_tac; intuition congruence. Qed.
Lemma about_super : about "Cannot use 'super' outside of a class." this_rule.
Proof. about_tac; intuition congruence. Qed.
Lemma about_super_class : about "Cannot use 'super' in a class with no superclass." this_rule.
Proof. about_tac; intuition congruence. Qed.
Lemma about_redeclaration :
  about "Variable with this name already declared in this scope." redeclaration_rule.
Proof. about_tac; intuition congruence. Qed.
Lemma about_inheritance : about "A class cannot inherit from itself." inheritance_rule.
Proof. about_tac; intuition congruence. Qed.
Lemma about_initializer :
  about "Cannot read local variable in its own initializer." initializer_rule.
Proof. about_tac; intuition congruence. Qed.

(** ** Distinct slots (C38) *)
Lemma first_at_same : forall l r j k x y,
  first_at l j x -> first_at (l ++ r) k y -> length (l ++ r) <= 256 ->
  (N.of_nat j mod 256 = N.of_nat k mod 256)%N -> x = y.
Proof.
  intros l r j k x y [H1 _] [H2 _] L E.
  assert (B1 : j < length (l ++ r)).
  { rewrite app_length. assert (j < length l) by (apply nth_error_Some; congruence). lia. }
  assert (B2 : k < length (l ++ r)) by (apply nth_error_Some; congruence).
  rewrite !N.mod_small in E by lia. apply Nnat.Nat2N.inj in E. subst k.
  rewrite nth_error_app1 in H2 by (apply nth_error_Some; congruence). congruence.
Qed.
Lemma first_at_lt : forall l k x, first_at l k x -> k < length l.
Proof. intros l k x [H _]. apply nth_error_Some. congruence. Qed.
(** [later] has the same scopes as [earlier], perhaps with more names. *)
Definition extended (earlier later : list (list string)) : Prop := Forall2 prefix earlier later.
Definition small {A} (l : list A) : Prop := length l <= 256.
Lemma Forall2_nth : forall A B (R : A -> B -> Prop) l1 l2 i a b,
  Forall2 R l1 l2 -> nth_error l1 i = Some a -> nth_error l2 i = Some b -> R a b.
Proof.
  intros A B R l1 l2 i a b H. revert i. induction H; intros [|i] E1 E2; cbn in *; try discriminate.
  - now injection E1 as ->; injection E2 as ->.
  - eauto.
Qed.
Lemma resolves_to_inj : forall G l1 l2 x y v,
  resolves_to G l1 x v -> resolves_to G l2 y v ->
  extended l1 l2 -> small G -> Forall small l2 -> x = y.
Proof.
  intros G l1 l2 x y v H1 H2 HE HG HS.
  assert (HL : length l1 = length l2) by (clear -HE; induction HE; cbn; auto).
  destruct H1 as [(i1 & sc1 & o1 & k1 & E1 & _ & F1 & V1)|(_ & k1 & F1 & V1)];
  destruct H2 as [(i2 & sc2 & o2 & k2 & E2 & _ & F2 & V2)|(_ & k2 & F2 & V2)];
  rewrite V1 in V2; injection V2 as VD VI; apply Nnat.Nat2N.inj in VD.
  - assert (N1 : nth_error l1 (length i1) = Some sc1)
      by (rewrite E1, nth_error_app2, Nat.sub_diag; auto).
    assert (N2 : nth_error l2 (length i1) = Some sc2)
      by (rewrite E2, VD, nth_error_app2, Nat.sub_diag; auto).
    destruct (Forall2_nth _ _ _ _ _ _ _ _ HE N1 N2) as (r & ->).
    eapply first_at_same; eauto. rewrite Forall_forall in HS. apply HS. subst l2.
    apply in_or_app. right. now left.
  - exfalso. subst l1. rewrite app_length in HL. cbn in HL. lia.
  - exfalso. subst l2. rewrite app_length in HL. cbn in HL. lia.
  - eapply (first_at_same G nil); rewrite ?app_nil_r; eauto.
Qed.

(** ** Nested blocks (C44) *)
Fixpoint nest (n : nat) : stmt :=
  match n with O => SBlock nil | S n => SBlock [nest n] end.
Lemma nest_nesting : forall n, nesting (nest n) = N.of_nat (S n).
Proof. induction n; [reflexivity|]. cbn [nest nesting deepest]. rewrite IHn. lia. Qed.
Lemma nest_blameless : forall n c e, ~ Exists (blames e) (nodes c (nest n)).
Proof.
  induction n; intros c e H; cbn in H.
  - inversion H as [? ? B|? ? B]; subst; [|inversion B]. destruct B as (x & l & [(P & _)|(P & _)]).
    + destruct P as (a & b & d & E). destruct a; discriminate.
    + unfold too_many, scope_limit in P. cbn in P. lia.
  - inversion H as [? ? B|? ? B]; subst.
    + cbn in B. assert (D : declared (nest n) = nil) by (destruct n; reflexivity).
      rewrite D in B. destruct B as (x & l & [(P & _)|(P & _)]).
      * destruct P as (a & b & d & E). destruct a; discriminate.
      * unfold too_many, scope_limit in P. cbn in P. lia.
    + rewrite app_nil_r in B. eapply IHn; eauto.
Qed.
Lemma nest_mentions : forall n c, flat_map mention (nodes c (nest n)) = nil.
Proof. induction n; intros c; cbn; auto. rewrite app_nil_r. auto. Qed.
Lemma nest_panics : forall n,
  (65534 < N.of_nat (S n))%N <-> exists w, resolve [nest n] = Panicked w.
Proof.
  intros n. unfold resolve. destruct resolver_new as [s| | |] eqn:EN; try discriminate.
  assert (Ht := new_top _ EN).
  assert (ET : table s = nil) by (injection EN as <-; reflexivity).
  cbn [obind]. split.
  - intros L. destruct (resolver_resolve [nest n] s) as [[r s']|w| |] eqn:E.
    + exfalso. destruct r as [l'|es].
      * apply nesting_accepted in E; auto. inversion E; subst. rewrite nest_nesting in *. lia.
      * apply resolve_separately in E. destruct E as (rs & H & V).
        inversion H as [|? ? r ? ? rs' ? H1 H2]; subst. inversion H2; subst.
        destruct r as [t|e]; [discriminate V|]. injection V as ->. cbn in H1.
        apply single_err in H1; auto. destruct H1 as [B|(T & _)].
        -- eapply nest_blameless; eauto.
        -- rewrite nest_mentions, ET in T. unfold too_many, scope_limit in T. cbn in T. lia.
    + exists w. reflexivity.
    + exfalso. unfold resolver_resolve in E. assert (X := loop_rmap [nest n] s).
      destruct (resolve_loop [nest n] nil nil s) as [[[]]| | |]; try contradiction; discriminate.
    + exfalso. unfold resolver_resolve in E. assert (X := loop_rmap [nest n] s).
      destruct (resolve_loop [nest n] nil nil s) as [[[]]| | |]; try contradiction; discriminate.
  - intros (w & E). destruct (N.le_gt_cases (N.of_nat (S n)) 65534) as [L|L]; auto. exfalso.
    destruct (program_no_panic [nest n] s Ht) as (r & s' & E').
    + constructor; auto. now rewrite nest_nesting.
    + rewrite E' in E. discriminate.
Qed.

(** ** Uniqueness (C48) *)
Lemma addressed_unique : forall l s l' s' t, top_state s ->
  resolver_resolve l s = Done (Ok l', s') -> map erase t = map erase l ->
  Forall (addressed (table s')) (program_nodes start t) -> t = l'.
Proof.
  intros l s l' s' t Ht H E A.
  assert (R := proj2 (proj2 (proj2 (proj2 (proj2 (program_ok_start _ _ _ _ Ht H))))) _ (prefix_refl _ _)).
  apply program_ok in H; auto. destruct H as (EE & _).
  eapply unique_program with (G := table s') (c := start); eauto. congruence.
Qed.

(** The exact condition. *)
Lemma program_valid_iff : forall l s, top_state s ->
  let c := context s in
  Forall size_rule (program_nodes start l) ->
  (N.of_nat (length (add_all (table s) (flat_map mention (program_nodes start l)))) <= scope_limit)%N ->
  ((exists l' s', resolver_resolve l s = Done (Ok l', s')) <->
   Forall allowed (program_nodes c l) /\ Forall (fun st => (nesting st <= 65534)%N) l).
Proof.
  intros l s Ht c HS HT.
  assert (Sm := program_alike l _ _ (context_sim s)). split.
  - intros (l' & s' & H). split; [eapply program_ok; eauto | eapply nesting_accepted; eauto].
  - intros (HA & HN). apply program_valid; auto.
    + eapply Forall_alike; [apply size_alike| |exact HS].
      clear -Sm. induction Sm; constructor; auto. destruct H as [Q1 Q2].
      split; [now apply sim_sym | auto].
    + unfold c. rewrite (mentions_alike _ _ Sm). exact HT.
Qed.

(** ** The context after a successful call (C43) *)
Lemma context_new : forall s, resolver_new = Done s -> context s = start.
Proof. intros s H. injection H as <-. reflexivity. Qed.
Lemma context_disjoint : forall s x, top_state s ->
  In x (c_blocked (context s)) -> In x (c_globals (context s)) -> False.
Proof.
  intros s x (g & -> & st & names & -> & ND) B D. cbn [context c_blocked c_globals] in *.
  apply in_state_spec in B; [|auto|discriminate]. apply in_state_spec in D; [|auto|discriminate].
  destruct B, D. congruence.
Qed.
Lemma context_after : forall l s l' s' x, top_state s ->
  resolver_resolve l s = Done (Ok l', s') ->
  (In x (c_globals (context s')) <-> In x (c_globals (context s)) \/ In x (flat_map declared l)) /\
  (In x (c_blocked (context s')) <-> In x (c_blocked (context s)) /\ ~ In x (flat_map declared l)).
Proof.
  intros l s l' s' x Ht H. assert (HD := context_disjoint s x Ht).
  assert (Ht' := proj1 (resolve_top _ _ _ _ Ht H)).
  apply program_ok in H; auto. destruct H as (_ & _ & _ & _ & _ & [Hs _ _ _ _]).
  unfold declare_names in Hs. change (c_locals (context s)) with (@nil (list string)) in Hs.
  cbn iota in Hs. cbn [c_locals c_blocked c_globals] in Hs.
  apply stack_nil in Hs. destruct Hs as (b & Eb & ES & ND & I1 & I2). injection Eb as <-.
  set (xs := flat_map declared l) in *.
  destruct Ht' as (g & E' & _). remember (table s') as T eqn:ET. clear ET. subst s'.
  cbn [scopes] in ES. injection ES as ->.
  cbn [context c_globals c_blocked] in *.
  rewrite !in_state_spec by (auto; discriminate).
  unfold global_state. set (bl := filter _ _) in *. set (gl := in_state DefinedVar s ++ xs) in *.
  assert (MB : mem x bl = true <-> In x (in_state DeclaredVar s) /\ ~ In x xs).
  { unfold bl. rewrite mem_filter, andb_true_iff, mem_In, negb_true_iff, mem_not. tauto. }
  assert (MG : mem x gl = true <-> In x (in_state DefinedVar s) \/ In x xs).
  { unfold gl. rewrite mem_In, in_app_iff. tauto. }
  assert (IB : mem x bl = true -> In x T) by (rewrite mem_In; auto).
  assert (IG : mem x gl = true -> In x T) by (rewrite mem_In; auto).
  destruct (mem x bl), (mem x gl); intuition congruence.
Qed.

(** ** Sessions *)
Lemma session_global : forall h s l l' c x v loc, history h s -> In (l, Ok l') h ->
  In (c, NExpr (EVariable x v loc)) (program_nodes start l') ->
  (forall sc, In sc (c_locals c) -> ~ In x sc) ->
  exists k, first_at (table s) k x /\ index v = (N.of_nat k mod 256)%N.
Proof.
  intros h s l l' c x v loc Hh I IN NL.
  assert (A := one_table _ _ Hh _ _ _ I (prefix_refl _ _)).
  rewrite Forall_forall in A. specialize (A _ IN). cbn in A.
  destruct A as [(i & sc & o & k & E & _ & F & V)|(_ & k & F & V)].
  - exfalso. apply (NL sc); [rewrite E; apply in_or_app; right; now left | eauto using first_at_In].
  - exists k. subst v. auto.
Qed.
Lemma top_in_nodes : forall l c st, In st l -> sim c start ->
  exists c', In (c', NStmt st) (program_nodes c l) /\ c_locals c' = nil.
Proof.
  induction l as [|s1 l IH]; intros c st I Sc; [destruct I|destruct I as [->|I]]; cbn.
  - exists c. split; [apply in_or_app; left; destruct st; now left|]. apply Sc.
  - destruct (IH (declare_names (declared s1) c) st I) as (c' & I' & L').
    + destruct Sc as (F & K & L). unfold declare_names. cbn in L. rewrite L. repeat split; auto.
    + exists c'. split; auto. apply in_or_app. now right.
Qed.
Lemma session_var : forall h s l l' x i e loc, history h s -> In (l, Ok l') h ->
  In (SVar x i e loc) l' -> exists k, first_at (table s) k x /\ slot i = (N.of_nat k mod 256)%N.
Proof.
  intros h s l l' x i e loc Hh I IN.
  assert (A := one_table _ _ Hh _ _ _ I (prefix_refl _ _)).
  destruct (top_in_nodes l' start _ IN) as (c & IC & L); [repeat split|].
  rewrite Forall_forall in A. specialize (A _ IC). cbn in A. rewrite L in A.
  destruct A as (k & -> & F). eauto.
Qed.
Lemma session_redeclared : forall h s l1 t1 l2 t2 x i1 e1 p1 i2 e2 p2, history h s ->
  In (l1, Ok t1) h -> In (l2, Ok t2) h ->
  In (SVar x i1 e1 p1) t1 -> In (SVar x i2 e2 p2) t2 -> i1 = i2.
Proof.
  intros h s l1 t1 l2 t2 x i1 e1 p1 i2 e2 p2 Hh I1 I2 J1 J2.
  destruct (session_var _ _ _ _ _ _ _ _ Hh I1 J1) as (k1 & F1 & E1).
  destruct (session_var _ _ _ _ _ _ _ _ Hh I2 J2) as (k2 & F2 & E2).
  rewrite (first_at_fun _ _ _ _ F1 F2) in E1. destruct i1, i2. cbn in *. congruence.
Qed.

Lemma distinct_slots : forall h s l l' s' c1 x v p1 c2 y p2, history h s ->
  resolver_resolve l s = Done (Ok l', s') ->
  In (c1, NExpr (EVariable x v p1)) (program_nodes start l') ->
  In (c2, NExpr (EVariable y v p2)) (program_nodes start l') ->
  extended (c_locals c1) (c_locals c2) ->
  small (table s') -> Forall small (c_locals c2) -> x = y.
Proof.
  intros h s l l' s' c1 x v p1 c2 y p2 Hh H I1 I2 HE HG HS.
  assert (A := proj2 (proj2 (proj2 (proj2 (proj2 (program_ok_start _ _ _ _ (history_top _ _ Hh) H))))) _ (prefix_refl _ _)).
  rewrite Forall_forall in A. eapply resolves_to_inj; [exact (A _ I1)|exact (A _ I2)|auto..].
Qed.

Lemma poisoned : forall h s x i e l c s1 l2 r s2, history h s ->
  ~ In x (c_globals (context s)) ->
  resolver_resolve [SVar x i e l] s = Done (Err [c], s1) ->
  c_message c <> "Too many local variables in function." ->
  resolver_resolve l2 s1 = Done (r, s2) -> ~ In x (flat_map declared l2) -> x <> "this" ->
  forall v p, resolver_resolve [SExpression (EVariable x v p)] s2 =
    Done (Err [cause_at p x "Cannot read local variable in its own initializer."], s2).
Proof.
  intros h s x i e l c s1 l2 r s2 Hh NG H NM H2 ND NT v p.
  assert (Ht := history_top _ _ Hh). assert (Ht1 := proj1 (resolve_top _ _ _ _ Ht H)).
  assert (Ht2 := proj1 (resolve_top _ _ _ _ Ht1 H2)).
  apply (single_statement _ _ (Err c)) in H.
  assert (B1 : In x (c_blocked (context s1))) by (exact (failed_blocks x i e l s c s1 Ht NG H NM)).
  assert (B2 : In x (c_blocked (context s2))) by (exact (stays_blocked l2 s1 r s2 x Ht1 H2 B1 ND)).
  apply blocked_read; auto.
Qed.

Definition here_loc : source_loc := mkLoc 1 1.
Definition read (x : string) : stmt := SExpression (EVariable x var_placeholder here_loc).
Definition var (x : string) (e : expr) : stmt := SVar x slot_placeholder e here_loc.
Lemma failed_line_refuted :
  ~ (forall h s l es s1 l2 t s2, history h s ->
       resolver_resolve l s = Done (Err es, s1) ->
       resolver_resolve l2 s = Done (Ok t, s2) ->
       exists t' s2', resolver_resolve l2 s1 = Done (Ok t', s2')).
Proof.
  intros H. destruct (H nil (mkR [nil] NoFunction NoClass)
    [var "x" (EVariable "x" var_placeholder here_loc)] _ _ [read "x"] _ _
    (history_new _ eq_refl) eq_refl eq_refl) as (t' & s2' & E).
  vm_compute in E. discriminate.
Qed.

(** A block with 257 variables. *)
Definition name_of (n : nat) : string :=
  String (ascii_of_nat (97 + n / 20)) (String (ascii_of_nat (97 + n mod 20)) "").
Definition crowded (n : nat) : list stmt :=
  map (fun i => var (name_of i) ENil) (seq 0 n) ++
  [read (name_of 0); read (name_of (n - 1))].
Lemma aliasing_refuted :
  ~ (forall h s l l' s' c x v p1 y p2, history h s ->
       resolver_resolve l s = Done (Ok l', s') ->
       In (c, NExpr (EVariable x v p1)) (program_nodes start l') ->
       In (c, NExpr (EVariable y v p2)) (program_nodes start l') -> x = y).
Proof.
  intros H.
  set (l' := match resolve [SBlock (crowded 257)] with Done (Ok t) => t | _ => nil end).
  set (s' := match resolver_resolve [SBlock (crowded 257)] (mkR [nil] NoFunction NoClass) with
             | Done (_, s') => s' | _ => mkR nil NoFunction NoClass end).
  set (c := mkCtx AtTop OutsideClass nil [map name_of (seq 0 257)] nil).
  assert (E : name_of 0 = name_of 256).
  { apply (H nil (mkR [nil] NoFunction NoClass) [SBlock (crowded 257)] l' s' c (name_of 0)
             (VarLoc 0 0) here_loc (name_of 256) here_loc).
    - now constructor.
    - vm_compute. reflexivity.
    - assert (X : nth_error (program_nodes start l') 516 =
        Some (c, NExpr (EVariable (name_of 0) (VarLoc 0 0) here_loc)))
        by (vm_compute; reflexivity).
      eapply nth_error_In; exact X.
    - assert (X : nth_error (program_nodes start l') 518 =
        Some (c, NExpr (EVariable (name_of 256) (VarLoc 0 0) here_loc)))
        by (vm_compute; reflexivity).
      eapply nth_error_In; exact X. }
  discriminate.
Qed.
