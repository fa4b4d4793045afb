(** What every run of the resolver preserves, also when it fails. *)
From Verif Require Import Base F64 Token Ast AstInd Resolver SpecResolve ResolveStep ResolveSound.
From Coq Require Import Lia.

(** Entries are in slot order, and no name has two. *)
Definition tidy (sc : scope) : Prop := exists st names, sc = layout st 0 names /\ NoDup names.

(** Entries stay; forward references are added. *)
Definition growsE (sc sc' : scope) : Prop :=
  exists r, sc' = sc ++ r /\ Forall (fun xv => v_state (snd xv) = UndefinedVar) r /\
    (tidy sc -> tidy sc').
(** Names keep their slots; only entries of names in [D] change. *)
Definition growsS (D : list string) (sc sc' : scope) : Prop :=
  prefix (map fst sc) (map fst sc') /\ (tidy sc -> tidy sc') /\
  (forall y v, ~ In y D -> scope_get sc y = Some v -> scope_get sc' y = Some v).

Lemma growsE_refl : forall sc, growsE sc sc.
Proof. intros. exists nil. rewrite app_nil_r. auto. Qed.
Lemma growsE_trans : forall a b c, growsE a b -> growsE b c -> growsE a c.
Proof.
  intros a b c (r & -> & F1 & T1) (q & -> & F2 & T2). exists (r ++ q).
  rewrite app_assoc, Forall_app. auto.
Qed.
Lemma scope_get_app : forall a b y v, scope_get a y = Some v -> scope_get (a ++ b) y = Some v.
Proof.
  induction a as [|[z w] a IH]; cbn; intros b y v H; [discriminate|].
  destruct (String.eqb z y); auto.
Qed.
Lemma growsS_refl : forall D sc, growsS D sc sc.
Proof. repeat split; auto using prefix_refl. Qed.
Lemma growsS_trans : forall D a b c, growsS D a b -> growsS D b c -> growsS D a c.
Proof.
  intros D a b c (P1 & T1 & U1) (P2 & T2 & U2). split; [|split]; eauto using prefix_trans.
Qed.
Lemma growsE_S : forall D a b, growsE a b -> growsS D a b.
Proof.
  intros D a b (r & -> & F & T). split; [|split]; auto.
  - exists (map fst r). apply map_app.
  - intros. now apply scope_get_app.
Qed.

Lemma Forall2_same : forall A (R : A -> A -> Prop) l, (forall x, R x x) -> Forall2 R l l.
Proof. induction l; auto. Qed.
Lemma Forall2_comp : forall A (R : A -> A -> Prop),
  (forall a b c, R a b -> R b c -> R a c) ->
  forall l m n, Forall2 R l m -> Forall2 R m n -> Forall2 R l n.
Proof.
  intros A R HR l m n H. revert n. induction H; intros n K; inversion K; subst; auto.
  constructor; eauto.
Qed.

Definition same_types (s s' : rstate) : Prop :=
  function_type s' = function_type s /\ class_type s' = class_type s.
Definition followsE (s s' : rstate) : Prop :=
  same_types s s' /\ Forall2 growsE (scopes s) (scopes s').
Definition followsS (D : list string) (s s' : rstate) : Prop :=
  same_types s s' /\
  match scopes s, scopes s' with
  | nil, nil => True
  | sc :: r, sc' :: r' => growsS D sc sc' /\ Forall2 growsE r r'
  | _, _ => False
  end.
Lemma followsE_refl : forall s, followsE s s.
Proof. intros s. split; [split; auto | apply Forall2_same, growsE_refl]. Qed.
Lemma followsE_trans : forall a b c, followsE a b -> followsE b c -> followsE a c.
Proof.
  intros a b c ((F1 & C1) & H1) ((F2 & C2) & H2). split; [split; congruence|].
  eapply Forall2_comp; eauto using growsE_trans.
Qed.
Lemma followsE_S : forall D a b, followsE a b -> followsS D a b.
Proof.
  intros D a b (T & H). split; auto. destruct H; auto. split; auto using growsE_S.
Qed.
Lemma followsS_refl : forall D s, followsS D s s.
Proof. intros. apply followsE_S, followsE_refl. Qed.
Lemma followsS_trans : forall D a b c, followsS D a b -> followsS D b c -> followsS D a c.
Proof.
  intros D a b c ((F1 & C1) & H1) ((F2 & C2) & H2). split; [split; congruence|].
  destruct (scopes a), (scopes b), (scopes c); try tauto.
  destruct H1, H2. split; eauto using growsS_trans, Forall2_comp, growsE_trans.
Qed.

Definition keeps (R0 : rstate -> rstate -> Prop) {A} (m : R A) : Prop :=
  forall s, match m s with
            | ROk _ s' | RErr _ s' => R0 s s'
            | RPanic _ => True
            end.
Notation keepsE := (keeps followsE).
Notation keepsS D := (keeps (followsS D)).

Lemma keepsE_S : forall D A (m : R A), keepsE m -> keepsS D m.
Proof. intros D A m H s. specialize (H s). destruct (m s); auto using followsE_S. Qed.
Section Closed.
Variable R0 : rstate -> rstate -> Prop.
Hypothesis R0_refl : forall s, R0 s s.
Hypothesis R0_trans : forall a b c, R0 a b -> R0 b c -> R0 a c.
Lemma keeps_ret : forall A (a : A), keeps R0 (rret a).
Proof. intros A a s. cbn. auto. Qed.
Lemma keeps_fail : forall A e, keeps R0 (@rfail A e).
Proof. intros A e s. cbn. auto. Qed.
Lemma keeps_get : forall A (f : rstate -> A), keeps R0 (rget f).
Proof. intros A f s. cbn. auto. Qed.
Lemma keeps_bind : forall A B (m : R A) (f : A -> R B),
  keeps R0 m -> (forall a, keeps R0 (f a)) -> keeps R0 (rbind m f).
Proof.
  intros A B m f H1 H2 s. specialize (H1 s). unfold rbind.
  destruct (m s) as [a s1|e s1|w]; auto. specialize (H2 a s1).
  destruct (f a s1); eauto.
Qed.
Lemma keeps_map : forall A B (f : A -> R B) l, Forall (fun a => keeps R0 (f a)) l ->
  keeps R0 (rmap f l).
Proof.
  induction 1 as [|a r H1 H2 IH]; cbn [rmap]; [apply keeps_ret|].
  apply keeps_bind; [exact H1|]. intros b. apply keeps_bind; [exact IH|]. intros. apply keeps_ret.
Qed.
Lemma keeps_opt : forall A B (f : A -> R B) o, Popt (fun a => keeps R0 (f a)) o ->
  keeps R0 (ropt f o).
Proof.
  intros A B f [a|] H; cbn in *; [|apply keeps_ret]. apply keeps_bind; [exact H|].
  intros. apply keeps_ret.
Qed.
Lemma keeps_limit : forall n x l, keeps R0 (ensure_scope_index_limit n x l).
Proof.
  intros n x l s. destruct (limit_cases n x l s) as [E|[_ E]]; rewrite E; auto.
Qed.
End Closed.

Lemma upsert_other : forall sc x f v y w, y <> x -> scope_get sc y = Some w ->
  scope_get (scope_upsert sc x f v) y = Some w.
Proof.
  induction sc as [|[z u] r IH]; cbn; intros x f v y w N H; [discriminate|].
  destruct (String.eqb_spec z x) as [->|Nz]; cbn.
  - destruct (String.eqb_spec x y); [congruence | auto].
  - destruct (String.eqb z y); auto.
Qed.
Lemma tidy_upsert : forall D sc x (g : defined_state -> defined_state) f v,
  (forall u, f u = mkVar (v_slot u) (g (v_state u))) -> v_slot v = length sc ->
  In x D -> growsS D sc (scope_upsert sc x f v).
Proof.
  intros D sc x g f v Hf Hv HD. split; [|split].
  - clear Hv. induction sc as [|[y w] r IH]; cbn.
    + exists [x]. reflexivity.
    + destruct (String.eqb y x); cbn; [apply prefix_refl|].
      destruct IH as (q & E). exists q. now rewrite E.
  - intros (st & names & -> & ND). destruct (in_dec String.string_dec x names) as [I|N].
    + rewrite upsert_old with (d := g (st x)); auto; [|intros i; rewrite Hf; reflexivity].
      eexists _, names. auto.
    + rewrite upsert_new by auto. rewrite layout_length in Hv. destruct v as [i d]. cbn in Hv. subst i.
      exists (fun y => if String.eqb y x then d else st y), (names ++ [x]).
      split; [|now apply NoDup_snoc]. rewrite layout_app. cbn. rewrite String.eqb_refl. f_equal.
      apply layout_ext. intros y Hy. destruct (String.eqb_spec y x); [subst; contradiction | auto].
  - intros y w Ny Hy. apply upsert_other; auto. intros ->. auto.
Qed.

Lemma keeps_define : forall D x l, In x D -> keepsS D (define x l).
Proof.
  intros D x l HD s. unfold define. destruct (scopes s) as [|sc r] eqn:ES; auto.
  unfold rbind. destruct (limit_cases (length sc) x l s) as [E|[_ E]]; rewrite E;
    [|apply followsS_refl].
  match goal with |- context[scope_upsert sc x ?f ?v] =>
    assert (H : growsS D sc (scope_upsert sc x f v)) end.
  { eapply tidy_upsert with (g := fun _ => DefinedVar); [|reflexivity|auto].
    intros [i []]; reflexivity. }
  match goal with |- context[if ?b then RErr _ ?s2 else _] =>
    assert (F : followsS D s s2); [|destruct b; exact F] end.
  split; [split; reflexivity|]. rewrite ES. cbn. split; auto.
  apply Forall2_same, growsE_refl.
Qed.
Lemma keeps_declare : forall D x l, In x D -> keepsS D (declare x l).
Proof.
  intros D x l HD s. unfold declare. destruct (scopes s) as [|sc r] eqn:ES; auto.
  unfold rbind. destruct (limit_cases (length sc) x l s) as [E|[_ E]]; rewrite E;
    [|apply followsS_refl].
  match goal with |- context[scope_upsert sc x ?f ?v] =>
    assert (H : growsS D sc (scope_upsert sc x f v)) end.
  { eapply tidy_upsert with (g := fun d => match d with UndefinedVar => DeclaredVar | d => d end);
      [|reflexivity|auto]. intros [i []]; reflexivity. }
  match goal with |- context[let '(_, _) := ?p in _] => destruct p as [i b] end.
  match goal with |- context[if ?b then RErr _ ?s2 else _] =>
    assert (F : followsS D s s2); [|destruct b; exact F] end.
  split; [split; reflexivity|]. rewrite ES. cbn. split; auto.
  apply Forall2_same, growsE_refl.
Qed.
Lemma growsE_reserve : forall g x, scope_get g x = None ->
  growsE g (g ++ [(x, mkVar (length g) UndefinedVar)]).
Proof.
  intros g x Hx. exists [(x, mkVar (length g) UndefinedVar)]. split; auto. split; [auto|].
  intros (st & names & -> & ND).
  destruct (get_layout st x names 0) as [(i & _ & E)|(N & _)]; [congruence|].
  exists (fun y => if String.eqb y x then UndefinedVar else st y), (names ++ [x]).
  split; [|now apply NoDup_snoc]. rewrite layout_app, layout_length. cbn.
  rewrite String.eqb_refl. f_equal. apply layout_ext. intros y Hy.
  destruct (String.eqb_spec y x); [subst; contradiction | auto].
Qed.
Lemma update_last_rev : forall A (f : A -> A) l g r, rev l = g :: r ->
  exists i, l = i ++ [g] /\ update_last f l = i ++ [f g].
Proof.
  intros A f l g r H. apply (f_equal (@rev A)) in H. rewrite rev_involutive in H. cbn in H.
  exists (rev r). split; auto. subst l. generalize (rev r). clear.
  induction l as [|a l IH]; auto. cbn [app].
  change (update_last f (a :: l ++ [g])) with
    (match l ++ [g] with nil => [f a] | _ => a :: update_last f (l ++ [g]) end).
  rewrite IH. destruct (l ++ [g]) eqn:E; [now destruct l | reflexivity].
Qed.
Lemma keeps_lookup : forall x l, keepsE (resolve_local_variable x l).
Proof.
  intros x l s. unfold resolve_local_variable.
  destruct (lookup_scopes (scopes s) x 0) as [[d v]|] eqn:E; [apply followsE_refl|].
  unfold rbind, forward_reserve_global_var. destruct (rev (scopes s)) as [|g r] eqn:ER; auto.
  unfold rbind. destruct (limit_cases (length g) x l s) as [EL|[_ EL]]; rewrite EL;
    [|apply followsE_refl].
  destruct (scope_get g x) eqn:EG; auto. destruct (length (scopes s) =? 0); auto.
  split; [split; reflexivity|]. cbn [scopes set_scopes].
  destruct (update_last_rev _ (fun g' => g' ++ [(x, mkVar (length g) UndefinedVar)]) _ _ _ ER)
    as (i & E1 & E2). rewrite E2, E1. apply Forall2_app.
  - apply Forall2_same, growsE_refl.
  - constructor; auto using growsE_reserve.
Qed.
Lemma keeps_check_own : forall x l, keepsE (check_own_initializer x l).
Proof.
  intros x l s. unfold check_own_initializer. destruct (scopes s) as [|sc r]; auto.
  destruct (scope_get sc x) as [[i []]|]; cbn; apply followsE_refl.
Qed.

Lemma keeps_block : forall D A (m : R A), keepsS D m ->
  keepsE (rdo begin_scope ;; rfinally m end_scope).
Proof.
  intros D A m H s. unfold rbind, begin_scope, rfinally.
  destruct (_ <=? _)%N; auto. specialize (H (set_scopes (nil :: scopes s) s)).
  destruct (m _) as [a s1|e s1|w]; auto.
  - destruct H as ((F & C) & H). cbn in *. destruct (scopes s1) as [|sc r] eqn:E; [tauto|].
    split; [split; auto|]. unfold end_scope. rewrite E. cbn. tauto.
  - destruct H as ((F & C) & H). cbn in *. destruct (scopes s1) as [|sc r] eqn:E; [tauto|].
    split; [split; auto|]. unfold end_scope. rewrite E. cbn. tauto.
Qed.

Ltac kb := first
  [ apply keeps_ret; solve [eauto using followsE_refl, followsS_refl]
  | apply keeps_fail; solve [eauto using followsE_refl, followsS_refl]
  | apply keeps_get; solve [eauto using followsE_refl, followsS_refl]
  | apply keeps_bind; [solve [eauto using followsE_trans, followsS_trans] | | intros]
  | apply keeps_map; [solve [eauto using followsE_refl, followsS_refl]
                     | solve [eauto using followsE_trans, followsS_trans] | ]
  | apply keeps_opt; [solve [eauto using followsE_refl, followsS_refl]
                     | solve [eauto using followsE_trans, followsS_trans] | ]
  | apply keeps_lookup | apply keeps_check_own | apply keeps_define; solve [cbn; auto] | apply keeps_declare; solve [cbn; auto]
  | assumption | apply keepsE_S; assumption ].
Ltac kbs := repeat kb.

Lemma keeps_this_block : forall l ms,
  Forall (Pn (fun f => forall t, keepsE (resolve_function f t))) ms -> keepsE (this_block l ms).
Proof.
  intros l ms H. apply keeps_block with (D := ["this"]). kb; [kb|].
  apply keepsE_S. kb. eapply Forall_impl; [|exact H].
  intros [n f] Hf. kb; auto. kb.
Qed.
Lemma keeps_super_block : forall l ms,
  Forall (Pn (fun f => forall t, keepsE (resolve_function f t))) ms -> keepsE (super_block l ms).
Proof.
  intros l ms H. apply keeps_block with (D := ["super"]). kb; [kb|].
  apply keepsE_S. now apply keeps_this_block.
Qed.

Lemma incl_stmts : forall b, Forall (fun st => forall D, incl (declared st) D ->
    keepsS D (resolve_statement st)) b -> forall D, incl (flat_map declared b) D ->
  keepsS D (rmap resolve_statement b).
Proof.
  intros b H D HD. apply keeps_map; [apply followsS_refl | apply followsS_trans|].
  rewrite Forall_forall in *. intros st I. apply H; auto.
  intros x Hx. apply HD. apply in_flat_map. eauto.
Qed.

Theorem resolver_keeps :
  (forall st D, incl (declared st) D -> keepsS D (resolve_statement st)) /\
  (forall e, keepsE (resolve_expression e)) /\
  (forall d D, (match d with ClassDef x _ _ _ => In x D end) -> keepsS D (resolve_class d)) /\
  (forall f, forall t, keepsE (resolve_function f t)).
Proof.
  apply tree_ind; intros; cbn [resolve_statement resolve_expression resolve_function];
    try (kbs; fail).
  - (* block *) apply keepsE_S, keeps_block with (D := flat_map declared b). kb; [|kb].
    apply incl_stmts; auto using incl_refl.
  - (* class *)
    intros s. unfold rbind, rget, rmodify, rfinally. 
    match goal with |- context[set_class_type ?k s] => generalize k end. intros k.
    assert (HD : match c with ClassDef x _ _ _ => In x D end).
    { destruct c. apply H0. now left. }
    specialize (H D HD (set_class_type k s)).
    destruct (resolve_class c (set_class_type k s)) as [d s1|e s1|w]; auto; cbn;
      destruct H as ((F & C) & H); (split; [split; auto | exact H]).
  - (* fun *) kb; [apply keeps_define, H0; now left|]. apply keepsE_S. kb; auto. kb.
  - (* if *)
    cbn in H2. assert (I1 : incl (declared t) D) by (intros x Hx; apply H2, in_or_app; auto).
    kb; [now apply keepsE_S|]. kb; [auto|]. kb; [|kb]. kb. destruct e; cbn in *; auto.
    apply H1. intros x Hx. apply H2, in_or_app. auto.
  - (* return *)
    apply keepsE_S. kb; [|kb; [auto|kb]]. unfold check_return. kb; [kb|].
    destruct a; try kb. destruct (is_nil_literal e); kb.
  - (* var *)
    assert (I : In x D) by (apply H0; now left).
    kbs.
  - (* while *) kb; [now apply keepsE_S|]. kb; [auto|kb].
  - (* while-increment *) kb; [now apply keepsE_S|]. kb; [auto|]. kbs.
  - (* function *) kb; [auto|kb].
  - (* map *) kb; [|kb]. kb. eapply Forall_impl; [|exact H]. intros [k e] He. kb; [exact He|kb].
  - (* super *) kb; [|kbs]. unfold check_super. kb; [kb|]. destruct a; kb.
  - (* variable *) kb; [|kbs]. unfold check_this. kb; [kb|].
    destruct a; try kb. destruct (String.eqb x "this"); kb.
  - (* class *)
    intros s0. destruct s as [e|].
    + rewrite class_some. revert s0. change (keepsS D (rdo define n l ;; rdo check_self_inheritance n (Some e) ;;
        rlet e' <- resolve_expression e ;;
        rlet ms' <- super_block l ms ;; rret (ClassDef n (Some e') ms' l))).
      kb; [now apply keeps_define|]. kb.
      { unfold check_self_inheritance. destruct e; try kb. destruct (String.eqb x n); kb. }
      kb; [apply keepsE_S; exact H|]. kb; [|kb]. apply keepsE_S. now apply keeps_super_block.
    + rewrite class_none. revert s0. change (keepsS D (rdo define n l ;; 
        rlet ms' <- this_block l ms ;; rret (ClassDef n None ms' l))).
      kb; [now apply keeps_define|]. kb; [|kb]. apply keepsE_S. now apply keeps_this_block.
  - (* function *)
    intros s. unfold rbind at 1, rget. unfold rbind at 1, rmodify.
    match goal with |- context[rdo begin_scope ;; rfinally ?m0 ?cl] =>
      set (m := m0); assert (Hm : keepsE (rdo begin_scope ;; rfinally m end_scope)) end.
    { apply keeps_block with (D := map p_name ps ++ flat_map declared b). kb.
      - kb. apply Forall_forall. intros p I. apply keeps_define, in_or_app. left.
        now apply in_map.
      - kb; [|kb]. apply incl_stmts; auto. now apply incl_appr, incl_refl. }
    clearbody m. specialize (Hm (set_function_type t s)). unfold rbind, rfinally in *.
    destruct (begin_scope (set_function_type t s)) as [[] s1|e s1|w] eqn:EB; auto.
    + destruct (m s1) as [a s2|e s2|w]; auto;
        destruct Hm as ((F & C) & Hm); (split; [split; auto | exact Hm]).
    + unfold begin_scope in EB. destruct (_ <=? _)%N; discriminate.
Qed.
