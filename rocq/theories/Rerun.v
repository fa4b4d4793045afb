(** Programs that were accepted once are accepted again (C80, C81). *)
From Verif Require Import Base F64 Token Ast Resolver AstInd SpecResolve SpecRename RenameResolve ResolveStep ResolveNodes ResolveFinal ResolveProps.
Local Open Scope string_scope.

(** ** Fewer names blocked, more globals *)
Definition freer (c c' : ctx) : Prop :=
  sim c c' /\ incl (c_blocked c') (c_blocked c) /\ incl (c_globals c) (c_globals c').
Definition freer_node (a b : ctx * node) : Prop := freer (fst a) (fst b) /\ snd a = snd b.

Lemma incl_filter {A} (f : A -> bool) a b : incl a b -> incl (filter f a) (filter f b).
Proof. intros H x. rewrite !filter_In. intuition. Qed.
Lemma freer_declare : forall xs c c', freer c c' -> freer (declare_names xs c) (declare_names xs c').
Proof.
  intros xs c c' (Sm & B & G). split; [now apply sim_declare|]. destruct Sm as (_ & _ & L).
  unfold declare_names. rewrite <- L. destruct (c_locals c); cbn; split; auto using incl_filter.
  apply incl_app; [apply incl_appl; auto | apply incl_appr, incl_refl].
Qed.
Lemma freer_init : forall x c c', freer c c' -> freer (initialising x c) (initialising x c').
Proof.
  intros x c c' (Sm & B & G). split; [now apply sim_init|]. destruct Sm as (_ & _ & L).
  unfold initialising, known. rewrite <- L. destruct (c_locals c) as [|sc r]; cbn; split; auto.
  - destruct (mem x (c_globals c)) eqn:M.
    + apply mem_In, G, mem_In in M. rewrite M. auto.
    + destruct (mem x (c_globals c')); [apply incl_tl; auto|].
      intros y [->|H]; [now left | right; auto].
  - destruct (mem x sc); auto. intros y [->|H]; [now left | right; auto].
Qed.
Lemma freer_open : forall xs c c', freer c c' -> freer (open_scope xs c) (open_scope xs c').
Proof. intros xs c c' (Sm & B & G). split; [now apply sim_open|]. cbn. split; auto. apply incl_refl. Qed.
Lemma freer_fun : forall k c c', freer c c' -> freer (in_function k c) (in_function k c').
Proof. intros k c c' (Sm & B & G). split; [now apply sim_fun|]. cbn. auto. Qed.
Lemma freer_class : forall k c c', freer c c' -> freer (in_class k c) (in_class k c').
Proof. intros k c c' (Sm & B & G). split; [now apply sim_class|]. cbn. auto. Qed.

Lemma freer_flat : forall A (f g : A -> list (ctx * node)) l,
  Forall (fun a => Forall2 freer_node (f a) (g a)) l ->
  Forall2 freer_node (flat_map f l) (flat_map g l).
Proof. induction 1; cbn; auto using Forall2_app. Qed.
Lemma freer_thread : forall b,
  Forall (fun st => forall c c', freer c c' -> Forall2 freer_node (nodes c st) (nodes c' st)) b ->
  forall c c', freer c c' -> Forall2 freer_node (thread nodes c b) (thread nodes c' b).
Proof.
  induction 1; intros c c' S; cbn [thread]; auto.
  apply Forall2_app; auto using freer_declare.
Qed.
Lemma nodes_freer :
  (forall st c c', freer c c' -> Forall2 freer_node (nodes c st) (nodes c' st)) /\
  (forall e c c', freer c c' -> Forall2 freer_node (expr_nodes c e) (expr_nodes c' e)) /\
  (forall d c c', freer c c' -> Forall2 freer_node (class_nodes c d) (class_nodes c' d)) /\
  (forall f c c', freer c c' -> Forall2 freer_node (fun_nodes c f) (fun_nodes c' f)).
Proof.
  apply tree_ind; intros;
    cbn [nodes expr_nodes fun_nodes class_nodes];
    try (apply Forall2_cons; [split; auto |]);
    try (apply Forall2_app; [|apply Forall2_cons; [split; auto | apply Forall2_nil]]);
    repeat apply Forall2_app; auto using freer_init, freer_declare, freer_open, freer_fun, freer_thread;
    try (apply freer_flat; eapply Forall_impl; [|eassumption]; cbn; auto; fail).
  - destruct e; cbn in *; auto using freer_declare.
  - apply freer_flat. eapply Forall_impl; [|exact H]. intros [k e]; cbn; auto.
  - destruct s; cbn in *.
    + apply Forall2_app; auto using freer_class, freer_declare.
      apply freer_flat. eapply Forall_impl; [|exact H0]. intros [m f]; cbn.
      auto 8 using freer_class, freer_declare, freer_fun, freer_open.
    + apply freer_flat. eapply Forall_impl; [|exact H0]. intros [m f]; cbn.
      auto 8 using freer_class, freer_declare, freer_fun, freer_open.
Qed.
Lemma program_freer : forall l c c', freer c c' ->
  Forall2 freer_node (program_nodes c l) (program_nodes c' l).
Proof.
  intros. apply freer_thread; auto. apply Forall_forall. intros st _. apply nodes_freer.
Qed.
Lemma allowed_freer : forall x y, freer_node x y -> allowed x -> allowed y.
Proof.
  intros [c n] [c' n'] [((F & K & L) & B & _) E]. cbn in *. subst n'.
  unfold allowed, return_rule, this_rule, redeclaration_rule, initializer_rule, inheritance_rule.
  rewrite <- F, <- K. intros (H1 & H2 & H3 & H4 & H5). repeat split; auto.
  destruct n as [|e|]; auto. destruct e; auto.
Qed.
Lemma allowed_in_freer : forall l c c', freer c c' ->
  Forall allowed (program_nodes c l) -> Forall allowed (program_nodes c' l).
Proof.
  intros l c c' F. assert (H := program_freer l _ _ F). clear F. induction H; auto.
  intros A. inversion A; subst. constructor; eauto using allowed_freer.
Qed.

(** ** Sessions without errors *)
Lemma accepted_freer : forall s s2, only_accepted s s2 -> top_state s ->
  top_state s2 /\ freer (context s) (context s2) /\ prefix (table s) (table s2).
Proof.
  induction 1 as [s|s l l' s1 s2 H _ IH]; intros Ht.
  - split; [auto|]. split; [|apply prefix_refl]. split; [|split; apply incl_refl]. repeat split.
  - assert (Ht1 := proj1 (resolve_top _ _ _ _ Ht H)). destruct (IH Ht1) as (Ht2 & (Sm & B & G) & P).
    split; [auto|]. split; [split; [|split]|].
    + destruct (context_sim s) as (A1 & A2 & A3), (context_sim s2) as (B1 & B2 & B3).
      unfold sim. repeat split; congruence.
    + intros x I. apply B in I. apply (context_after _ _ _ _ x Ht H) in I. tauto.
    + intros x I. apply G. apply (context_after _ _ _ _ x Ht H). auto.
    + eapply prefix_trans; [|exact P]. rewrite (proj1 (proj2 (proj2 (proj2 (program_ok _ _ _ _ Ht H))))).
      apply add_all_prefix.
Qed.

Lemma add_all_known : forall xs G, incl xs G -> add_all G xs = G.
Proof.
  induction xs as [|x xs IH]; intros G I; cbn; auto.
  assert (M : mem x G = true) by (apply mem_In, I; now left). rewrite M. apply IH.
  intros y Hy. apply I. now right.
Qed.
Lemma add_all_in : forall xs G, incl xs (add_all G xs).
Proof.
  induction xs as [|x xs IH]; intros G y; cbn; [tauto|]. intros [->|Hy].
  - destruct (mem y G) eqn:M.
    + destruct (add_all_prefix xs G) as [r ->]. apply in_or_app. left. now apply mem_In.
    + destruct (add_all_prefix xs (G ++ [y])) as [r ->]. apply in_or_app. left. apply in_or_app. right. now left.
  - now apply IH.
Qed.

Lemma layout_state_ext : forall b b' g g' G, (forall x, In x b <-> In x b') -> (forall x, In x g <-> In x g') ->
  layout (global_state b g) 0 G = layout (global_state b' g') 0 G.
Proof.
  intros b b' g g' G B D. apply layout_ext. intros x _. unfold global_state.
  assert (M : mem x b = mem x b') by (apply eq_true_iff_eq; now rewrite !mem_In).
  assert (M' : mem x g = mem x g') by (apply eq_true_iff_eq; now rewrite !mem_In).
  now rewrite M, M'.
Qed.

(** The state is determined by the table and the context. *)
Lemma state_by_context : forall s s', top_state s -> top_state s' -> table s = table s' ->
  (forall x, In x (c_blocked (context s)) <-> In x (c_blocked (context s'))) ->
  (forall x, In x (c_globals (context s)) <-> In x (c_globals (context s'))) -> s = s'.
Proof.
  intros s s' Ht Ht' ET B G.
  destruct (context_agrees s Ht) as [Hs _ _ _ _], (context_agrees s' Ht') as [Hs' _ _ _ _].
  change (c_locals (context s)) with (@nil (list string)) in Hs.
  change (c_locals (context s')) with (@nil (list string)) in Hs'.
  apply stack_nil in Hs. apply stack_nil in Hs'.
  destruct Hs as (b & Eb & ES & _), Hs' as (b' & Eb' & ES' & _). injection Eb as <-. injection Eb' as <-.
  destruct Ht as (g & E & _), Ht' as (g' & E' & _).
  assert (Sc : scopes s = scopes s').
  { rewrite ES, ES', ET. f_equal. now apply layout_state_ext. }
  rewrite E, E' in *. cbn in Sc. congruence.
Qed.

Lemma accepted_again : forall l s l' s1 s2, top_state s ->
  resolver_resolve l s = Done (Ok l', s1) -> only_accepted s1 s2 ->
  Forall size_rule (program_nodes start l) -> (N.of_nat (length (table s2)) <= scope_limit)%N ->
  resolver_resolve l s2 = Done (Ok l', s2).
Proof.
  intros l s l' s1 s2 Ht H A HS HT.
  assert (Ht1 := proj1 (resolve_top _ _ _ _ Ht H)).
  destruct (accepted_freer _ _ A Ht1) as (Ht2 & F12 & P).
  destruct (accepted_freer s s2 (one_more _ _ _ _ _ H A) Ht) as (_ & F & _).
  assert (OK := program_ok_start _ _ _ _ Ht H). cbv zeta in OK.
  assert (ET := proj1 (proj2 (proj2 (proj2 (program_ok _ _ _ _ Ht H))))).
  assert (EM : flat_map mention (program_nodes (context s) l) = flat_map mention (program_nodes start l)).
  { apply mentions_alike, program_alike, context_sim. }
  assert (IN : add_all (table s2) (flat_map mention (program_nodes start l)) = table s2).
  { apply add_all_known. intros x I. destruct P as [r ->]. apply in_or_app. left. rewrite ET, EM. now apply add_all_in. }
  assert (EX : exists l2 s3, resolver_resolve l s2 = Done (Ok l2, s3)).
  { apply program_valid_iff; [exact Ht2|exact HS|rewrite IN; exact HT|].
    split; [|apply (nesting_accepted _ _ _ _ Ht H)]. eapply allowed_in_freer; [exact F|].
      exact (proj1 (proj2 (program_ok _ _ _ _ Ht H))). }
  destruct EX as (l2 & s3 & H2). rewrite H2.
  assert (ET2 := proj1 (proj2 (proj2 (proj2 (program_ok _ _ _ _ Ht2 H2))))).
  rewrite (mentions_alike _ _ (program_alike l _ _ (context_sim s2))), IN in ET2.
  assert (Ht3 := proj1 (resolve_top _ _ _ _ Ht2 H2)).
  assert (E3 : s3 = s2).
  { apply state_by_context; auto; intros x; destruct (context_after _ _ _ _ x Ht2 H2) as [G B].
    - rewrite B. split; [tauto|]. intros I. split; auto. intros D.
      apply F12 in I. apply (context_after _ _ _ _ x Ht H) in I. tauto.
    - rewrite G. split; [|tauto]. intros [I|D]; auto. apply F12. apply (context_after _ _ _ _ x Ht H). auto. }
  subst s3. do 2 f_equal.
  assert (AD : Forall (addressed (table s2)) (program_nodes start l')).
  { apply (proj2 (proj2 (proj2 (proj2 (proj2 OK))))). exact P. }
  assert (EE : map erase l' = map erase l) by exact (proj1 (program_ok _ _ _ _ Ht H)).
  symmetry. f_equal. exact (addressed_unique l s2 l2 s2 l' Ht2 H2 EE AD).
Qed.

(** ** Resolving the result *)
Lemma resolver_idempotent l s l' s' : top_state s ->
  resolver_resolve l s = Done (Ok l', s') -> resolver_resolve l' s = Done (Ok l', s').
Proof.
  intros Ht H. rewrite (resolver_any_slots l' l s); auto.
  exact (proj1 (program_ok _ _ _ _ Ht H)).
Qed.
Lemma resolve_idempotent l l' : resolve l = Done (Ok l') -> resolve l' = Done (Ok l').
Proof.
  unfold resolve. destruct resolver_new as [s| | |] eqn:N; cbn; try discriminate.
  destruct (resolver_resolve l s) as [[r s1]| | |] eqn:E; cbn; try discriminate. intros [= ->].
  now rewrite (resolver_idempotent _ _ _ _ (new_top _ N) E).
Qed.

(** ** After errors *)
Lemma after_errors_refuted : ~ forall h s l l' s1 m r s2, history h s ->
  resolver_resolve l s = Done (Ok l', s1) -> resolver_resolve m s1 = Done (r, s2) ->
  exists s3, resolver_resolve l s2 = Done (Ok l', s3).
Proof.
  intros H.
  pose (y := EVariable "y" (VarLoc 0 0) default_loc).
  pose (s0 := mkR [nil] NoFunction NoClass).
  destruct (resolver_resolve [SPrint y] s0) as [[[l'|] s1]| | |] eqn:E1; vm_compute in E1; try discriminate.
  destruct (resolver_resolve [SVar "y" (SlotIndex 0) y default_loc] s1) as [[r s2]| | |] eqn:E2;
    injection E1 as <- <-; vm_compute in E2; try discriminate.
  destruct (H nil s0 [SPrint y] _ _ [SVar "y" (SlotIndex 0) y default_loc] r s2 (history_new _ eq_refl) eq_refl) as (s3 & E).
  - vm_compute. exact E2.
  - injection E2 as <- <-. vm_compute in E. discriminate.
Qed.
