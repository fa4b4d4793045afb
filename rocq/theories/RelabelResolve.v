(** The resolver does not look at positions, except to report them. *)
From Verif Require Import Base F64 Token Ast AstInd Resolver SpecPlace.

Definition sim {A} (P : A -> A -> Prop) (m m' : R A) : Prop := forall s,
  match m s, m' s with
  | ROk a s1, ROk a' s1' => P a a' /\ s1 = s1'
  | RErr c s1, RErr c' s1' => same_message c c' /\ s1 = s1'
  | RPanic w, RPanic w' => w = w'
  | _, _ => False
  end.
Definition image {A} (f : A -> A) (a a' : A) : Prop := a' = f a.

Lemma sim_ret {A} (P : A -> A -> Prop) a a' : P a a' -> sim P (rret a) (rret a').
Proof. intros H s. cbn. auto. Qed.
Lemma sim_bind {A B} (P : A -> A -> Prop) (Q : B -> B -> Prop) m m' f f' :
  sim P m m' -> (forall a a', P a a' -> sim Q (f a) (f' a')) -> sim Q (rbind m f) (rbind m' f').
Proof.
  intros H F s. unfold rbind. specialize (H s). destruct (m s), (m' s); try contradiction; auto.
  destruct H as [H ->]. apply F. exact H.
Qed.
Lemma sim_finally {A} (P : A -> A -> Prop) m m' c : sim P m m' -> sim P (rfinally m c) (rfinally m' c).
Proof.
  intros H s. unfold rfinally. specialize (H s). destruct (m s), (m' s); try contradiction; auto;
  destruct H as [H ->]; auto.
Qed.
Lemma sim_map {A B} (P : B -> B -> Prop) (f : A -> R B) (f' : A -> R B) l l' :
  Forall2 (fun a a' => sim P (f a) (f' a')) l l' -> sim (Forall2 P) (rmap f l) (rmap f' l').
Proof.
  induction 1; cbn.
  - apply sim_ret. constructor.
  - eapply sim_bind; [eassumption|]. intros b b' Hb. eapply sim_bind; [eassumption|].
    intros r r' Hr. apply sim_ret. now constructor.
Qed.
Lemma sim_refl {A} (m : R A) : sim eq m m.
Proof. intros s. destruct (m s); auto. repeat split; auto. Qed.
Lemma sim_weaken {A} (P Q : A -> A -> Prop) m m' : (forall a a', P a a' -> Q a a') -> sim P m m' -> sim Q m m'.
Proof. intros W H s. specialize (H s). destruct (m s), (m' s); intuition. Qed.
Lemma image_map {A} (f : A -> A) l l' : Forall2 (image f) l l' -> l' = map f l.
Proof. induction 1; cbn; congruence. Qed.
Lemma sim_list {A B} (g : A -> A) (f : A -> R B) (h : B -> B) l :
  Forall (fun a => sim (image h) (f a) (f (g a))) l -> sim (image (map h)) (rmap f l) (rmap f (map g l)).
Proof.
  intros H. eapply sim_weaken; [intros a a' E; exact (image_map h a a' E)|].
  apply sim_map. induction H; constructor; auto.
Qed.
Lemma sim_opt {A B} (g : A -> A) (f f' : A -> R B) (h : B -> B) o :
  match o with Some a => sim (image h) (f a) (f' (g a)) | None => True end ->
  sim (image (option_map h)) (ropt f o) (ropt f' (option_map g o)).
Proof.
  destruct o; cbn; intros H.
  - eapply sim_bind; [exact H|]. intros ? ? ->. apply sim_ret. reflexivity.
  - apply sim_ret. reflexivity.
Qed.

(** The functions that get a position. *)
Lemma sim_limit n x l l' : sim eq (ensure_scope_index_limit n x l) (ensure_scope_index_limit n x l').
Proof. intros s. unfold ensure_scope_index_limit. destruct (_ <? _)%N; cbn; repeat split; auto. Qed.
Lemma sim_reserve x l l' : sim eq (forward_reserve_global_var x l) (forward_reserve_global_var x l').
Proof.
  intros s. unfold forward_reserve_global_var. destruct (rev (scopes s)) as [|g r]; auto.
  refine (sim_bind eq eq _ _ _ _ (sim_limit _ _ _ _) _ s). intros [] [] _. destruct (scope_get g x); apply sim_refl.
Qed.
Lemma sim_local x l l' : sim eq (resolve_local_variable x l) (resolve_local_variable x l').
Proof.
  intros s. unfold resolve_local_variable. destruct (lookup_scopes _ _ _) as [[d v]|]; [repeat split; auto|].
  refine (sim_bind eq eq _ _ _ _ (sim_reserve _ _ _) _ s). intros a a' <-. apply sim_refl.
Qed.
Lemma sim_declare x l l' : sim eq (declare x l) (declare x l').
Proof.
  intros s. unfold declare. destruct (scopes s) as [|sc outer]; auto.
  refine (sim_bind eq eq _ _ _ _ (sim_limit _ _ _ _) _ s). intros [] [] _ s1.
  destruct (match scope_get sc x with None => _ | Some v => _ end) as [i d].
  destruct (d && _)%bool; repeat split; auto.
Qed.
Lemma sim_define x l l' : sim eq (define x l) (define x l').
Proof.
  intros s. unfold define. destruct (scopes s) as [|sc outer]; auto.
  refine (sim_bind eq eq _ _ _ _ (sim_limit _ _ _ _) _ s). intros [] [] _ s1. cbv zeta.
  destruct (_ && _)%bool; repeat split; auto.
Qed.
Lemma sim_return e e' l l' : is_nil_literal e = is_nil_literal e' -> sim eq (check_return e l) (check_return e' l').
Proof.
  intros E s. unfold check_return, rbind, rget. destruct (function_type s); cbn; auto; try (repeat split; auto).
  rewrite E. destruct (is_nil_literal e'); repeat split; auto.
Qed.
Lemma sim_super l l' : sim eq (check_super l) (check_super l').
Proof. intros s. unfold check_super, rbind, rget. destruct (class_type s); cbn; repeat split; auto. Qed.
Lemma sim_this x l l' : sim eq (check_this x l) (check_this x l').
Proof.
  intros s. unfold check_this, rbind, rget. destruct (class_type s), (String.eqb x "this"); cbn; repeat split; auto.
Qed.
Lemma sim_own x l l' : sim eq (check_own_initializer x l) (check_own_initializer x l').
Proof.
  intros s. unfold check_own_initializer. destruct (scopes s); auto. destruct (scope_get _ _) as [[? []]|]; repeat split; auto.
Qed.
Lemma sim_self n s : sim eq (check_self_inheritance n s) (check_self_inheritance n (option_map unplaced_expr s)).
Proof.
  intros st. destruct s as [[]|]; cbn; auto. destruct (String.eqb _ _); cbn; repeat split; auto.
Qed.
Lemma nil_literal e : is_nil_literal e = is_nil_literal (unplaced_expr e).
Proof. now destruct e. Qed.

Ltac bind := match goal with
  | |- sim _ (rbind (resolve_expression _) _) _ => eapply sim_bind; [eassumption|intros ? ? ->]
  | |- sim _ (rbind (resolve_statement _) _) _ => eapply sim_bind; [eassumption|intros ? ? ->]
  | |- sim _ (rbind (resolve_class _) _) _ => eapply sim_bind; [eassumption|intros ? ? ->]
  | H : forall t, sim _ (resolve_function ?f t) _ |- sim _ (rbind (resolve_function ?f _) _) _ =>
    eapply sim_bind; [apply H|intros ? ? ->]
  | |- sim _ (rbind (rmap resolve_expression _) _) _ => eapply sim_bind; [apply sim_list; eassumption|intros ? ? ->]
  | |- sim _ (rbind (rmap resolve_statement _) _) _ => eapply sim_bind; [apply sim_list; eassumption|intros ? ? ->]
  | |- sim _ (rbind (resolve_local_variable _ _) _) _ => eapply sim_bind; [apply sim_local|intros ? ? <-]
  | |- sim _ (rbind (declare _ _) _) _ => eapply sim_bind; [apply sim_declare|intros ? ? <-]
  | |- sim _ (rbind (define _ _) _) _ => eapply sim_bind; [apply sim_define|intros ? ? <-]
  | |- sim _ (rbind (check_super _) _) _ => eapply sim_bind; [apply sim_super|intros ? ? <-]
  | |- sim _ (rbind (check_this _ _) _) _ => eapply sim_bind; [apply sim_this|intros ? ? <-]
  | |- sim _ (rbind (check_own_initializer _ _) _) _ => eapply sim_bind; [apply sim_own|intros ? ? <-]
  | |- sim _ (rbind (check_return _ _) _) _ => eapply sim_bind; [apply sim_return, nil_literal|intros ? ? <-]
  | |- sim _ (rbind (check_self_inheritance _ _) _) _ => eapply sim_bind; [apply sim_self|intros ? ? <-]
  | |- sim _ (rbind ?m _) (rbind ?m _) => eapply sim_bind; [apply sim_refl|intros ? ? <-]
  | |- sim _ (rfinally _ _) _ => apply sim_finally
  | |- sim _ (rret _) _ => apply sim_ret; reflexivity
  end.

Definition statement_sim (st : stmt) : Prop :=
  sim (image unplaced) (resolve_statement st) (resolve_statement (unplaced st)).
Definition expression_sim (e : expr) : Prop :=
  sim (image unplaced_expr) (resolve_expression e) (resolve_expression (unplaced_expr e)).
Definition class_sim (c : class_def) : Prop :=
  sim (image unplaced_class) (resolve_class c) (resolve_class (unplaced_class c)).
Definition fun_sim (f : fun_def) : Prop := forall t,
  sim (image unplaced_fun) (resolve_function f t) (resolve_function (unplaced_fun f) t).

Lemma resolver_sim : (forall st, statement_sim st) /\ (forall e, expression_sim e) /\
  (forall c, class_sim c) /\ (forall f, fun_sim f).
Proof.
  apply tree_ind; unfold statement_sim, expression_sim, class_sim, fun_sim; intros;
    cbn [unplaced unplaced_expr unplaced_class unplaced_fun unplaced_named option_map
         resolve_statement resolve_expression resolve_class resolve_function];
    try solve [repeat bind].
  - (* class *)
    bind. destruct c as [n [s|] ms l]; cbn [unplaced_class option_map]; repeat bind.
  - (* if *)
    bind. bind. eapply sim_bind; [apply sim_opt; destruct e; eassumption|intros ? ? ->]. bind.
  - (* map *)
    eapply sim_bind.
    + apply sim_list with (g := fun kv => match kv with (k, e) => (k, unplaced_expr e) end)
        (h := fun kv => match kv with (k, e) => (k, unplaced_expr e) end).
      eapply Forall_impl; [|eassumption]. intros [k e]. cbn. intros. repeat bind.
    + intros ? ? ->. bind.
  - (* class *)
    bind. bind. eapply sim_bind with (P := image (option_map unplaced_expr)).
    { apply sim_opt. destruct s as [e|]; cbn in *; auto. bind. bind.
      intros st. pose proof (sim_define "super" l no_place st) as D.
      destruct (define "super" l st), (define "super" no_place st); try contradiction; auto;
        destruct D as [D ->]; auto. split; auto. reflexivity. }
    intros s1 s1' ->. bind. eapply sim_bind with (P := image (map unplaced_named)).
    { destruct s as [e|]; cbn [option_map]; apply sim_finally; bind;
      (apply sim_list; eapply Forall_impl; [|eassumption]; intros [x f]; cbn [Pn unplaced_named]; intros F; bind; bind). }
    intros m1 m1' ->. bind.
  - (* function *)
    bind. bind. bind. bind. 
    eapply sim_bind with (P := fun _ _ => True).
    { apply sim_weaken with (P := Forall2 eq); auto. apply sim_map. clear. induction ps; constructor; auto.
      apply sim_define. }
    intros _ _ _. repeat bind.
Qed.

Lemma placed_sim st st' : unplaced st = unplaced st' ->
  sim (fun a a' => unplaced a = unplaced a') (resolve_statement st) (resolve_statement st').
Proof.
  intros E s. pose proof (proj1 resolver_sim st s) as H. pose proof (proj1 resolver_sim st' s) as H'.
  rewrite <- E in H'.
  destruct (resolve_statement st s), (resolve_statement st' s), (resolve_statement (unplaced st) s);
    try contradiction; intuition; unfold image, same_message in *; subst; intuition congruence.
Qed.

Lemma loop_same l : forall l' done done' errs errs' s, map unplaced l = map unplaced l' ->
  map unplaced done = map unplaced done' -> same_messages errs errs' ->
  match resolve_loop l done errs s, resolve_loop l' done' errs' s with
  | Done (d, e, s1), Done (d', e', s1') => map unplaced d = map unplaced d' /\ same_messages e e' /\ s1 = s1'
  | Panicked w, Panicked w' => w = w'
  | _, _ => False
  end.
Proof.
  induction l as [|st l IH]; intros [|st' l'] done done' errs errs' s E D M; try discriminate.
  - cbn. auto.
  - injection E as E1 E2. cbn. pose proof (placed_sim st st' E1 s) as H.
    destruct (resolve_statement st s), (resolve_statement st' s); try contradiction; auto; destruct H as [H ->].
    + apply IH; auto. rewrite !map_app. cbn. congruence.
    + apply IH; auto. apply Forall2_app; auto.
Qed.

Lemma resolver_same l l' s : map unplaced l = map unplaced l' ->
  match resolver_resolve l s, resolver_resolve l' s with
  | Done (r, s1), Done (r', s1') => same_program (Done r) (Done r') /\ s1 = s1'
  | Panicked w, Panicked w' => w = w'
  | _, _ => False
  end.
Proof.
  intros E. unfold resolver_resolve. pose proof (loop_same l l' nil nil nil nil s E eq_refl (Forall2_nil _)) as H.
  destruct (resolve_loop l nil nil s) as [[[d e] s1]| | |], (resolve_loop l' nil nil s) as [[[d' e'] s1']| | |];
    cbn; try contradiction; auto.
  destruct H as (D & M & ->). destruct M; cbn; auto. split; auto. now constructor.
Qed.
Lemma resolve_same l l' : map unplaced l = map unplaced l' -> same_program (resolve l) (resolve l').
Proof.
  intros E. unfold resolve. destruct resolver_new as [s| | |] eqn:N; cbn; auto; try (vm_compute in N; discriminate).
  pose proof (resolver_same l l' s E) as H.
  destruct (resolver_resolve l s) as [[r s1]| | |], (resolver_resolve l' s) as [[r' s1']| | |]; cbn in *; try contradiction; auto.
  apply H.
Qed.
