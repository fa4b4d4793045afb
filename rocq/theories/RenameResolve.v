(** The resolver looks at names only to compare them, and does not look at slots. *)
From Verif Require Import Base F64 Token Ast AstInd Resolver SpecResolve SpecRename.

Section Rename.
Variables r q : string -> string.
Hypothesis RN : renaming r.
Hypothesis KI : keeps_init q.
Notation rs := (renamed_state r).

Definition sim {A} (h : A -> A) (m m' : R A) : Prop := forall s,
  match m s, m' (rs s) with
  | ROk a s1, ROk a' s1' => a' = h a /\ s1' = rs s1
  | RErr c s1, RErr c' s1' => c' = renamed_cause r c /\ s1' = rs s1
  | RPanic w, RPanic w' => w = w'
  | _, _ => False
  end.
Definition same {A} (a : A) : A := a.

Lemma sim_ret {A} (h : A -> A) a : sim h (rret a) (rret (h a)).
Proof. intros s. cbn. auto. Qed.
Lemma sim_bind {A B} (h : A -> A) (k : B -> B) m m' f f' :
  sim h m m' -> (forall a, sim k (f a) (f' (h a))) -> sim k (rbind m f) (rbind m' f').
Proof.
  intros H F s. unfold rbind. specialize (H s). destruct (m s), (m' (rs s)); try contradiction; auto.
  destruct H as [-> ->]. apply F.
Qed.
Lemma sim_finally {A} (h : A -> A) m m' c c' : (forall s, c' (rs s) = rs (c s)) ->
  sim h m m' -> sim h (rfinally m c) (rfinally m' c').
Proof.
  intros C H s. unfold rfinally. specialize (H s). destruct (m s), (m' (rs s)); try contradiction; auto;
  destruct H as [-> ->]; auto.
Qed.
Lemma sim_list {A B} (g : A -> A) (f f' : A -> R B) (h : B -> B) l :
  Forall (fun a => sim h (f a) (f' (g a))) l -> sim (map h) (rmap f l) (rmap f' (map g l)).
Proof.
  induction 1; cbn.
  - exact (sim_ret (map h) nil).
  - eapply sim_bind; [eassumption|]. intros b. eapply sim_bind; [exact IHForall|].
    intros t. exact (sim_ret (map h) (b :: t)).
Qed.
Lemma sim_opt {A B} (g : A -> A) (f f' : A -> R B) (h : B -> B) o :
  match o with Some a => sim h (f a) (f' (g a)) | None => True end ->
  sim (option_map h) (ropt f o) (ropt f' (option_map g o)).
Proof.
  destruct o; cbn; intros H.
  - eapply sim_bind; [exact H|]. intros b. exact (sim_ret (option_map h) (Some b)).
  - exact (sim_ret (option_map h) None).
Qed.

(** ** Scopes *)
Definition ren (sc : scope) : scope := map (fun xv : string * var_state => match xv with (x, v) => (r x, v) end) sc.
Lemma scopes_renamed s : scopes (rs s) = map ren (scopes s).
Proof. reflexivity. Qed.
Lemma ren_length sc : length (ren sc) = length sc.
Proof. apply map_length. Qed.
Lemma eqb_renamed x y : String.eqb (r x) (r y) = String.eqb x y.
Proof.
  destruct (String.eqb_spec x y) as [->|N]; [apply String.eqb_refl|].
  destruct (String.eqb_spec (r x) (r y)) as [E|]; auto. apply RN in E. contradiction.
Qed.
Lemma get_renamed sc x : scope_get (ren sc) (r x) = scope_get sc x.
Proof. unfold ren. induction sc as [|[y v] sc IH]; cbn; auto. rewrite eqb_renamed, IH. reflexivity. Qed.
Lemma upsert_renamed sc x f v : scope_upsert (ren sc) (r x) f v = ren (scope_upsert sc x f v).
Proof. unfold ren. induction sc as [|[y w] sc IH]; cbn; auto. rewrite eqb_renamed. destruct (String.eqb y x); cbn; congruence. Qed.
Lemma lookup_renamed scs x : forall d, lookup_scopes (map ren scs) (r x) d
  = lookup_scopes scs x d.
Proof. induction scs as [|sc scs IH]; intros d; cbn [map lookup_scopes]; auto. rewrite get_renamed, IH. reflexivity. Qed.
Lemma update_last_map {A B} (g : A -> B) f f' l : (forall a, f' (g a) = g (f a)) ->
  update_last f' (map g l) = map g (update_last f l).
Proof.
  intros H. induction l as [|a [|b l] IH]; cbn in *; auto; congruence.
Qed.

Lemma sim_fail {A} (h : A -> A) l x m : sim h (rfail (cause_at l x m)) (rfail (cause_at l (r x) m)).
Proof. intros s. cbn. auto. Qed.
Lemma sim_limit n n' x l : n = n' -> sim same (ensure_scope_index_limit n x l) (ensure_scope_index_limit n' (r x) l).
Proof.
  intros <-. unfold ensure_scope_index_limit. destruct (_ <? _)%N; [apply sim_fail|exact (sim_ret same tt)].
Qed.
Lemma sim_reserve x l : sim same (forward_reserve_global_var x l) (forward_reserve_global_var (r x) l).
Proof.
  intros s. unfold forward_reserve_global_var. rewrite scopes_renamed. rewrite <- map_rev.
  destruct (rev (scopes s)) as [|g z]; cbn [map]; auto.
  rewrite ren_length, get_renamed.
  refine (sim_bind same same _ _ _ _ (sim_limit _ _ _ _ eq_refl) _ s). intros [] s1.
  destruct (scope_get g x); cbn; auto. split; auto. unfold set_scopes, renamed_state. cbn. f_equal.
  apply update_last_map. intros a. symmetry. apply map_app.
Qed.
Lemma sim_local x l : sim same (resolve_local_variable x l) (resolve_local_variable (r x) l).
Proof.
  intros s. unfold resolve_local_variable. rewrite scopes_renamed. rewrite lookup_renamed.
  destruct (lookup_scopes _ _ _) as [[d v]|]; [split; auto|]. rewrite map_length.
  refine (sim_bind same same _ _ _ _ (sim_reserve _ _) _ s). intros a s1. destruct (_ =? 0); cbn; auto.
Qed.
Lemma global_renamed s : is_in_global_scope (rs s) = is_in_global_scope s.
Proof. unfold is_in_global_scope. cbn. now rewrite map_length. Qed.
Lemma set_scopes_renamed sc outer s :
  set_scopes (ren sc :: map ren outer) (rs s)
  = rs (set_scopes (sc :: outer) s).
Proof. reflexivity. Qed.
Lemma sim_declare x l : sim same (declare x l) (declare (r x) l).
Proof.
  intros s. unfold declare. rewrite scopes_renamed. destruct (scopes s) as [|sc outer]; cbn [map]; auto.
  rewrite get_renamed, upsert_renamed.
  refine (sim_bind same same _ _ _ _ (sim_limit _ _ _ _ (eq_sym (ren_length _))) _ s). intros [] s1.
  cbv zeta. rewrite ren_length.
  destruct (match scope_get sc x with None => _ | Some v => _ end) as [i d].
  rewrite set_scopes_renamed, global_renamed.
  destruct (d && _)%bool; split; auto.
Qed.
Lemma sim_define x l : sim same (define x l) (define (r x) l).
Proof.
  intros s. unfold define. rewrite scopes_renamed. destruct (scopes s) as [|sc outer]; cbn [map]; auto.
  rewrite get_renamed, upsert_renamed.
  refine (sim_bind same same _ _ _ _ (sim_limit _ _ _ _ (eq_sym (ren_length _))) _ s). intros [] s1.
  cbv zeta. rewrite ren_length, set_scopes_renamed, global_renamed.
  destruct (_ && _)%bool; split; auto.
Qed.
Lemma method_type_renamed x : method_type (q x) = method_type x.
Proof.
  unfold method_type. destruct (String.eqb_spec x "init") as [E|E], (String.eqb_spec (q x) "init") as [E'|E']; auto.
  - destruct E'. exact (proj2 (KI x) E).
  - destruct E. exact (proj1 (KI x) E').
Qed.
Lemma this_renamed : r "this" = "this". Proof. apply RN. Qed.
Lemma super_renamed : r "super" = "super". Proof. apply RN. Qed.
Lemma return_renamed : r "return" = "return". Proof. apply RN. Qed.
Lemma sim_return e e' l : is_nil_literal e = is_nil_literal e' -> sim same (check_return e l) (check_return e' l).
Proof.
  intros E s. unfold check_return, rbind, rget. cbn. rewrite <- E.
  destruct (function_type s); cbn; auto; [|destruct (is_nil_literal e); cbn; auto];
    unfold renamed_cause; cbn; now rewrite return_renamed.
Qed.
Lemma sim_super l : sim same (check_super l) (check_super l).
Proof.
  intros s. unfold check_super, rbind, rget. cbn. destruct (class_type s); cbn; auto;
    unfold renamed_cause; cbn; now rewrite super_renamed.
Qed.
Lemma sim_this x l : sim same (check_this x l) (check_this (r x) l).
Proof.
  intros s. unfold check_this, rbind, rget. cbn.
  rewrite <- (eqb_renamed x "this"), this_renamed.
  destruct (class_type s), (String.eqb (r x) "this"); cbn; auto; unfold renamed_cause; cbn; now rewrite this_renamed.
Qed.
Lemma sim_own x l : sim same (check_own_initializer x l) (check_own_initializer (r x) l).
Proof.
  intros s. unfold check_own_initializer. rewrite scopes_renamed. destruct (scopes s) as [|sc outer]; cbn [map]; auto.
  rewrite get_renamed. destruct (scope_get sc x) as [[? []]|]; cbn; auto.
Qed.
Lemma sim_self n s : sim same (check_self_inheritance n s) (check_self_inheritance (r n) (option_map (renamed_expr r q) s)).
Proof.
  destruct s as [[]|]; cbn; try exact (sim_ret same tt). rewrite eqb_renamed.
  destruct (String.eqb _ _); [apply sim_fail|exact (sim_ret same tt)].
Qed.
Lemma nil_literal e : is_nil_literal e = is_nil_literal (renamed_expr r q e).
Proof. now destruct e. Qed.
Lemma sim_begin : sim same begin_scope begin_scope.
Proof.
  intros s. unfold begin_scope. cbn. rewrite map_length. destruct (_ <=? _)%N; cbn; auto.
Qed.
Lemma sim_get {A} (f : rstate -> A) : (forall s, f (rs s) = f s) -> sim same (rget f) (rget f).
Proof. intros H s. cbn. split; [apply H|reflexivity]. Qed.
Lemma sim_modify f : (forall s, f (rs s) = rs (f s)) -> sim same (rmodify f) (rmodify f).
Proof. intros H s. cbn. auto. Qed.
Lemma end_renamed s : end_scope (rs s) = rs (end_scope s).
Proof. unfold end_scope, set_scopes, renamed_state. cbn. f_equal. now destruct (scopes s). Qed.

Ltac bind := match goal with
  | |- sim _ (rbind (resolve_expression _) _) _ => eapply sim_bind; [eassumption|intros ?]
  | |- sim _ (rbind (resolve_statement _) _) _ => eapply sim_bind; [eassumption|intros ?]
  | |- sim _ (rbind (resolve_class _) _) _ => eapply sim_bind; [eassumption|intros ?]
  | H : forall t, sim _ (resolve_function ?f t) _ |- sim _ (rbind (resolve_function ?f _) _) _ =>
    eapply sim_bind; [apply H|intros ?]
  | |- sim _ (rbind (rmap resolve_expression _) _) _ => eapply sim_bind; [apply sim_list; eassumption|intros ?]
  | |- sim _ (rbind (rmap resolve_statement _) _) _ => eapply sim_bind; [apply sim_list; eassumption|intros ?]
  | |- sim _ (rbind (resolve_local_variable _ _) _) _ => eapply sim_bind; [apply sim_local|intros ?]
  | |- sim _ (rbind (declare _ _) _) _ => eapply sim_bind; [apply sim_declare|intros ?]
  | |- sim _ (rbind (define _ _) _) _ => eapply sim_bind; [apply sim_define|intros ?]
  | |- sim _ (rbind (check_super _) _) _ => eapply sim_bind; [apply sim_super|intros ?]
  | |- sim _ (rbind (check_this _ _) _) _ => eapply sim_bind; [apply sim_this|intros ?]
  | |- sim _ (rbind (check_own_initializer _ _) _) _ => eapply sim_bind; [apply sim_own|intros ?]
  | |- sim _ (rbind (check_return _ _) _) _ => eapply sim_bind; [apply sim_return, nil_literal|intros ?]
  | |- sim _ (rbind (check_self_inheritance _ _) _) _ => eapply sim_bind; [apply sim_self|intros ?]
  | |- sim _ (rbind begin_scope _) _ => eapply sim_bind; [apply sim_begin|intros ?]
  | |- sim _ (rbind (rget _) _) _ => eapply sim_bind; [apply sim_get; reflexivity|intros ?]
  | |- sim _ (rbind (rmodify _) _) _ => eapply sim_bind; [apply sim_modify; reflexivity|intros ?]
  | |- sim _ (rfinally _ _) _ => apply sim_finally; [intros ?; rewrite ?end_renamed; reflexivity|]
  | |- sim ?h (rret ?a) _ => exact (sim_ret h a)
  end; unfold same.

Definition statement_sim (st : stmt) : Prop := sim (renamed r q) (resolve_statement st) (resolve_statement (renamed r q st)).
Definition expression_sim (e : expr) : Prop :=
  sim (renamed_expr r q) (resolve_expression e) (resolve_expression (renamed_expr r q e)).
Definition class_sim (c : class_def) : Prop :=
  sim (renamed_class r q) (resolve_class c) (resolve_class (renamed_class r q c)).
Definition fun_sim (f : fun_def) : Prop := forall t,
  sim (renamed_fun r q) (resolve_function f t) (resolve_function (renamed_fun r q f) t).

Lemma resolver_sim : (forall st, statement_sim st) /\ (forall e, expression_sim e) /\
  (forall c, class_sim c) /\ (forall f, fun_sim f).
Proof.
  apply tree_ind; unfold statement_sim, expression_sim, class_sim, fun_sim; intros;
    cbn [renamed renamed_expr renamed_class renamed_fun option_map
         resolve_statement resolve_expression resolve_class resolve_function];
    try solve [repeat bind].
  - (* class *)
    bind. destruct c as [n [s|] ms l]; cbn [renamed_class option_map]; repeat bind.
  - (* function *)
    replace (match renamed_fun r q f with FunDef _ _ _ l => l end) with (match f with FunDef _ _ _ l => l end) by now destruct f.
    repeat bind.
  - (* if *)
    bind. bind. eapply sim_bind; [apply sim_opt; destruct e; eassumption|intros ?]. bind.
  - (* map *)
    eapply sim_bind.
    + apply sim_list with (g := fun kv => match kv with (k, e) => (q k, renamed_expr r q e) end)
        (h := fun kv => match kv with (k, e) => (q k, renamed_expr r q e) end).
      eapply Forall_impl; [|eassumption]. intros [k e]. cbn. intros. eapply sim_bind; [eassumption|intros x].
      exact (sim_ret (fun kv => match kv with (k, e) => (q k, renamed_expr r q e) end) (k, x)).
    + intros x. bind.
  - (* super *)
    bind. rewrite <- super_renamed at 2. bind. bind.
  - (* class *)
    bind. bind. eapply sim_bind with (h := option_map (renamed_expr r q)).
    { apply sim_opt. destruct s as [e|]; cbn in *; auto. bind. bind.
      intros st. pose proof (sim_define "super" l st) as D. rewrite super_renamed in D.
      destruct (define "super" l st), (define "super" l (rs st)); try contradiction; auto;
        destruct D as [-> ->]; auto. rewrite end_renamed. auto. }
    intros s1. bind. eapply sim_bind with (h := map (fun m => match m with NamedFun x f => NamedFun (q x) (renamed_fun r q f) end)).
    { destruct s as [e|]; cbn [option_map]; bind; rewrite <- this_renamed at 2; bind;
      (apply sim_list; eapply Forall_impl; [|eassumption]; intros [x f]; cbn [Pn]; intros F; rewrite method_type_renamed;
       eapply sim_bind; [apply F|intros y];
       exact (sim_ret (fun m => match m with NamedFun x f => NamedFun (q x) (renamed_fun r q f) end) (NamedFun x y))). }
    intros m1. bind.
  - (* function *)
    bind. bind. bind. bind.
    eapply sim_bind with (h := map same).
    { apply sim_list with (g := fun p => mkParam (r (p_name p)) (p_loc p)). clear - RN. induction ps; constructor; auto.
      apply sim_define. }
    intros u. repeat bind.
Qed.

Lemma loop_renamed l : forall done errs s,
  resolve_loop (map (renamed r q) l) (map (renamed r q) done) (map (renamed_cause r) errs) (rs s) =
  match resolve_loop l done errs s with
  | Done (d, e, s1) => Done (map (renamed r q) d, map (renamed_cause r) e, rs s1)
  | Panicked w => Panicked w
  | Diverged => Diverged
  | OutOfFuel => OutOfFuel
  end.
Proof.
  induction l as [|st l IH]; intros done errs s; cbn [resolve_loop map]; auto.
  pose proof (proj1 resolver_sim st s) as H.
  destruct (resolve_statement st s), (resolve_statement (renamed r q st) (rs s)); try contradiction; [| |congruence];
    destruct H as [-> ->]; rewrite <- IH, map_app; reflexivity.
Qed.
Lemma resolver_renamed l s :
  resolver_resolve (map (renamed r q) l) (rs s) =
  match resolver_resolve l s with
  | Done (Ok l', s1) => Done (Ok (map (renamed r q) l'), rs s1)
  | Done (Err cs, s1) => Done (Err (map (renamed_cause r) cs), rs s1)
  | Panicked w => Panicked w
  | Diverged => Diverged
  | OutOfFuel => OutOfFuel
  end.
Proof.
  unfold resolver_resolve. pose proof (loop_renamed l nil nil s) as H. cbn [map] in H. rewrite H. clear H.
  destruct (resolve_loop l nil nil s) as [[[d e] s1]| | |]; cbn; auto. destruct e; reflexivity.
Qed.
Lemma resolve_renamed l : resolve (map (renamed r q) l) = renamed_result r q (resolve l).
Proof.
  unfold resolve. destruct resolver_new as [s| | |] eqn:N; cbn; auto.
  assert (E : s = rs s) by (vm_compute in N; injection N as <-; reflexivity).
  rewrite E at 1. rewrite resolver_renamed. destruct (resolver_resolve l s) as [[[l'|cs] s1]| | |]; reflexivity.
Qed.
End Rename.

(** ** Slots *)
Lemma map_erased {A B} (g : A -> A) (f f' : A -> R B) l s : Forall (fun a => forall s, f' (g a) s = f a s) l ->
  rmap f' (map g l) s = rmap f l s.
Proof.
  intros H. revert s. induction H as [|a l Ha _ IH]; intros s; cbn; auto. unfold rbind. rewrite Ha.
  destruct (f a s) as [y s1| |]; auto. now rewrite IH.
Qed.
Lemma bind_same {A B} (m m' : R A) (f f' : A -> R B) s : m' s = m s -> (forall a s, f' a s = f a s) ->
  rbind m' f' s = rbind m f s.
Proof. intros E F. unfold rbind. rewrite E. destruct (m s); auto. Qed.
Lemma finally_same {A} (m m' : R A) c s : m' s = m s -> rfinally m' c s = rfinally m c s.
Proof. intros E. unfold rfinally. now rewrite E. Qed.
Lemma opt_same {A B} (g : A -> A) (f f' : A -> R B) o s :
  match o with Some a => forall s, f' (g a) s = f a s | None => True end -> ropt f' (option_map g o) s = ropt f o s.
Proof. destruct o; cbn; intros H; auto. apply bind_same; auto. Qed.

Ltac same := match goal with
  | |- rbind ?m _ _ = rbind ?m _ _ => apply bind_same; [reflexivity|intros ? ?]
  | |- rbind (rmap _ _) _ _ = rbind (rmap _ _) _ _ => apply bind_same; [apply map_erased; eassumption|intros ? ?]
  | |- rbind _ _ _ = rbind _ _ _ => apply bind_same; [auto|intros ? ?]
  | |- rfinally _ _ _ = rfinally _ _ _ => apply finally_same
  | |- rret _ _ = rret _ _ => reflexivity
  end.
Lemma resolver_erased : (forall st s, resolve_statement (erase st) s = resolve_statement st s) /\
  (forall e s, resolve_expression (erase_expr e) s = resolve_expression e s) /\
  (forall c s, resolve_class (erase_class c) s = resolve_class c s) /\
  (forall f t s, resolve_function (erase_fun f) t s = resolve_function f t s).
Proof.
  apply tree_ind; intros; cbn [erase erase_expr erase_class erase_fun option_map
         resolve_statement resolve_expression resolve_class resolve_function];
    try solve [repeat same].
  - (* class *)
    same. destruct c as [n [su|] ms l]; cbn [erase_class option_map]; repeat same.
  - (* function *)
    replace (match erase_fun f with FunDef _ _ _ l => l end) with (match f with FunDef _ _ _ l => l end) by now destruct f.
    repeat same.
  - (* if *)
    same. same. apply bind_same; [|intros; reflexivity]. apply opt_same. now destruct e.
  - (* return *)
    apply bind_same; [|intros; repeat same].
    unfold check_return. same. now destruct e.
  - (* map *)
    apply bind_same; [|intros; reflexivity]. apply map_erased. eapply Forall_impl; [|eassumption].
    intros [k e] He s1. repeat same.
  - (* class *)
    same. apply bind_same; [destruct s as [[]|]; reflexivity|intros _ ?].
    apply bind_same; [apply opt_same; destruct s; auto; intros; repeat same; reflexivity|intros ? ?].
    same. apply bind_same; [|intros; reflexivity].
    destruct s as [e|]; cbn [option_map]; apply finally_same; same;
      (apply map_erased; eapply Forall_impl; [|eassumption]; intros [x f] F ?; cbn [Pn] in F; repeat same).
Qed.

Lemma loop_erased l : forall done errs s, resolve_loop (map erase l) done errs s = resolve_loop l done errs s.
Proof.
  induction l as [|st l IH]; intros done errs s; cbn [resolve_loop map]; auto.
  rewrite (proj1 resolver_erased). destruct (resolve_statement st s); auto.
Qed.
Lemma resolver_any_slots l l' s : map erase l = map erase l' -> resolver_resolve l s = resolver_resolve l' s.
Proof. intros E. unfold resolver_resolve. now rewrite <- loop_erased, E, loop_erased. Qed.
Lemma resolve_any_slots l l' : map erase l = map erase l' -> resolve l = resolve l'.
Proof. intros E. unfold resolve. destruct resolver_new; cbn; auto. now rewrite (resolver_any_slots l l' a E). Qed.
