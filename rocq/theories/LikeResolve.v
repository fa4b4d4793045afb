(** Trees of the same form are resolved alike. *)
From Verif Require Import Base F64 Token Ast AstInd Resolver SpecLike.

Section Like.
Variable R : leaves.
Variable W : string -> string -> Prop.
Hypothesis KN : keeps_names R W.

Notation name_like := (name_like R).
Notation scope_like := (scope_like R).
Notation state_like := (state_like R).
Lemma name_unique a a' b b' : name_like a a' -> name_like b b' -> (a = b <-> a' = b').
Proof.
  destruct KN as (U & K & _). intros [A|[[-> ->]|[-> ->]]] [B|[[-> ->]|[-> ->]]]; auto; try tauto;
    try (split; discriminate); try (apply K in A); try (apply K in B); intuition; symmetry; auto.
Qed.
Lemma name_eqb a a' b b' : name_like a a' -> name_like b b' -> String.eqb a b = String.eqb a' b'.
Proof.
  intros A B. pose proof (name_unique _ _ _ _ A B) as E.
  destruct (String.eqb_spec a b), (String.eqb_spec a' b'); auto; tauto.
Qed.
Lemma name_text x x' : name_like x x' -> W x x'.
Proof. destruct KN as (_ & _ & K & A & B & _). intros [H|[[-> ->]|[-> ->]]]; auto. Qed.
Lemma named x x' : names_like R x x' -> name_like x x'.
Proof. now left. Qed.
Lemma this_name : name_like "this" "this".
Proof. right. now left. Qed.
Lemma super_name : name_like "super" "super".
Proof. right. now right. Qed.
Lemma method_like x x' : names_like R x x' -> method_type x = method_type x'.
Proof.
  intros H. destruct KN as (_ & K & _). destruct (K _ _ H) as (_ & _ & I). unfold method_type.
  destruct (String.eqb_spec x "init"), (String.eqb_spec x' "init"); auto; tauto.
Qed.

Lemma len_like {A B} (P : A -> B -> Prop) l l' : Forall2 P l l' -> length l = length l'.
Proof. induction 1; cbn; congruence. Qed.
Lemma get_like sc sc' x x' : scope_like sc sc' -> name_like x x' -> scope_get sc x = scope_get sc' x'.
Proof.
  intros H X. induction H as [|[y v] [y' v'] r r' [Y V] H IH]; cbn in *; auto.
  rewrite (name_eqb _ _ _ _ Y X). destruct (String.eqb y' x'); congruence.
Qed.
Lemma upsert_like sc sc' x x' f v : scope_like sc sc' -> name_like x x' ->
  scope_like (scope_upsert sc x f v) (scope_upsert sc' x' f v).
Proof.
  intros H X. induction H as [|[y w] [y' w'] r r' [Y V] H IH]; cbn in *.
  - constructor; [now split|constructor].
  - rewrite (name_eqb _ _ _ _ Y X). destruct (String.eqb y' x'); constructor; auto; split; cbn; auto; congruence.
Qed.
Lemma lookup_like scs scs' x x' : Forall2 scope_like scs scs' -> name_like x x' ->
  forall d, lookup_scopes scs x d = lookup_scopes scs' x' d.
Proof.
  intros H X. induction H as [|sc sc' r r' S H IH]; intros d; cbn; auto.
  rewrite (get_like _ _ _ _ S X), IH. reflexivity.
Qed.
Lemma update_like f f' scs scs' : (forall a a', scope_like a a' -> scope_like (f a) (f' a')) ->
  Forall2 scope_like scs scs' -> Forall2 scope_like (update_last f scs) (update_last f' scs').
Proof.
  intros HF H. induction H as [|a a' r r' A H IH]; cbn; auto. destruct H; repeat constructor; auto.
Qed.
Lemma rev_like {A} (P : A -> A -> Prop) l l' : Forall2 P l l' -> Forall2 P (rev l) (rev l').
Proof. induction 1; cbn; auto. apply Forall2_app; auto. Qed.

Definition sim {A} (P : A -> A -> Prop) (m m' : Resolver.R A) : Prop := forall s s', state_like s s' ->
  match m s, m' s' with
  | ROk a u, ROk a' u' => P a a' /\ state_like u u'
  | RErr c u, RErr c' u' => error_like R W c c' /\ state_like u u'
  | RPanic w, RPanic w' => w = w'
  | _, _ => False
  end.
Lemma sim_ret {A} (P : A -> A -> Prop) a a' : P a a' -> sim P (rret a) (rret a').
Proof. intros H s s' Y. cbn. auto. Qed.
Lemma sim_bind {A B} (P : A -> A -> Prop) (Q : B -> B -> Prop) m m' f f' :
  sim P m m' -> (forall a a', P a a' -> sim Q (f a) (f' a')) -> sim Q (rbind m f) (rbind m' f').
Proof.
  intros H F s s' Y. unfold rbind. specialize (H s s' Y). destruct (m s), (m' s'); try contradiction; auto.
  destruct H. now apply F.
Qed.
Definition keeping (c c' : rstate -> rstate) : Prop := forall s s', state_like s s' -> state_like (c s) (c' s').
Lemma sim_finally {A} (P : A -> A -> Prop) m m' c c' : keeping c c' ->
  sim P m m' -> sim P (rfinally m c) (rfinally m' c').
Proof.
  intros C H s s' Y. unfold rfinally. specialize (H s s' Y). destruct (m s), (m' s'); try contradiction; auto;
    destruct H; auto.
Qed.
Lemma sim_map {A B} (P : A -> A -> Prop) (Q : B -> B -> Prop) (f f' : A -> Resolver.R B) l l' :
  Forall2 P l l' -> (forall a a', In a l -> P a a' -> sim Q (f a) (f' a')) ->
  sim (Forall2 Q) (rmap f l) (rmap f' l').
Proof.
  induction 1 as [|a a' l l' H HL IH]; intros HF; cbn [rmap].
  - now apply sim_ret.
  - eapply sim_bind; [apply HF; [now left|exact H]|]. intros b b' HB.
    eapply sim_bind; [apply IH; intros; apply HF; auto; now right|]. intros t t' HT. apply sim_ret. now constructor.
Qed.
Lemma sim_opt {A B} (P : A -> A -> Prop) (Q : B -> B -> Prop) (f f' : A -> Resolver.R B) o o' :
  option_like P o o' -> (forall a a', o = Some a -> P a a' -> sim Q (f a) (f' a')) ->
  sim (option_like Q) (ropt f o) (ropt f' o').
Proof.
  intros [|a a' H] HF; cbn.
  - apply sim_ret. constructor.
  - eapply sim_bind; [now apply HF|]. intros b b' HB. apply sim_ret. now constructor.
Qed.
Lemma sim_fail {A} (P : A -> A -> Prop) l l' x x' m : places_like R l l' -> W x x' ->
  sim P (rfail (cause_at l x m)) (rfail (cause_at l' x' m)).
Proof. intros H X s s' Y. cbn. split; auto. repeat split; auto. now constructor. Qed.

(** ** The parts *)
Lemma set_scopes_like a a' s s' : Forall2 scope_like a a' -> state_like s s' ->
  state_like (set_scopes a s) (set_scopes a' s').
Proof. intros H (_ & F & C). repeat split; auto. Qed.
Lemma end_like : keeping end_scope end_scope.
Proof. intros s s' Y. apply set_scopes_like; auto. destruct Y as ([] & _); cbn; auto. Qed.
Lemma sim_begin : sim eq begin_scope begin_scope.
Proof.
  intros s s' Y. unfold begin_scope. destruct Y as (Y & F). rewrite <- (len_like _ _ _ Y).
  destruct (_ <=? _)%N; auto. split; auto. apply set_scopes_like; auto; [|now split]. constructor; auto. constructor.
Qed.
Lemma global_like s s' : state_like s s' -> is_in_global_scope s = is_in_global_scope s'.
Proof. intros (Y & _). unfold is_in_global_scope. now rewrite (len_like _ _ _ Y). Qed.
Lemma sim_limit n x x' l l' : places_like R l l' -> name_like x x' ->
  sim eq (ensure_scope_index_limit n x l) (ensure_scope_index_limit n x' l').
Proof.
  intros H X. unfold ensure_scope_index_limit. destruct (_ <? _)%N; [|now apply sim_ret].
  apply sim_fail; auto. now apply name_text.
Qed.
Lemma sim_reserve x x' l l' : places_like R l l' -> name_like x x' ->
  sim eq (forward_reserve_global_var x l) (forward_reserve_global_var x' l').
Proof.
  intros H X s s' Y. unfold forward_reserve_global_var. pose proof (rev_like _ _ _ (proj1 Y)) as V.
  destruct V as [|g g' r r' G V]; auto. rewrite <- (len_like _ _ _ G), <- (get_like _ _ _ _ G X).
  refine (sim_bind eq eq _ _ _ _ (sim_limit _ _ _ _ _ H X) _ s s' Y). intros _ _ _ u u' Z.
  destruct (scope_get g x); auto. split; auto. apply set_scopes_like; auto.
  apply update_like; [|apply Z]. intros a a' A. apply Forall2_app; [exact A|]. constructor; [now split|constructor].
Qed.
Lemma sim_local x x' l l' : places_like R l l' -> name_like x x' ->
  sim eq (resolve_local_variable x l) (resolve_local_variable x' l').
Proof.
  intros H X s s' Y. unfold resolve_local_variable. rewrite <- (lookup_like _ _ _ _ (proj1 Y) X).
  destruct (lookup_scopes _ _ _) as [[d v]|]; [now split|]. rewrite <- (len_like _ _ _ (proj1 Y)).
  refine (sim_bind eq eq _ _ _ _ (sim_reserve _ _ _ _ H X) _ s s' Y). intros a _ <- u u' Z.
  destruct (_ =? 0); auto.
Qed.
Lemma sim_declare x x' l l' : places_like R l l' -> name_like x x' -> sim eq (declare x l) (declare x' l').
Proof.
  intros H X s s' Y. unfold declare. pose proof (proj1 Y) as V. destruct V as [|sc sc' o o' C V]; auto.
  rewrite <- (len_like _ _ _ C), <- (get_like _ _ _ _ C X).
  refine (sim_bind eq eq _ _ _ _ (sim_limit _ _ _ _ _ H X) _ s s' Y). intros _ _ _ u u' Z.
  destruct (match scope_get sc x with None => _ | Some v => _ end) as [i d]. cbv zeta.
  match goal with |- context [set_scopes (scope_upsert sc x ?f ?v :: o) u] =>
    assert (Z' : state_like (set_scopes (scope_upsert sc x f v :: o) u) (set_scopes (scope_upsert sc' x' f v :: o') u')) end.
  { apply set_scopes_like; auto. constructor; auto. now apply upsert_like. }
  rewrite <- (global_like _ _ Z'). destruct (d && _)%bool; split; auto. repeat split; auto. constructor. now apply name_text.
Qed.
Lemma sim_define x x' l l' : places_like R l l' -> name_like x x' -> sim eq (define x l) (define x' l').
Proof.
  intros H X s s' Y. unfold define. pose proof (proj1 Y) as V. destruct V as [|sc sc' o o' C V]; auto.
  rewrite <- (len_like _ _ _ C), <- (get_like _ _ _ _ C X).
  refine (sim_bind eq eq _ _ _ _ (sim_limit _ _ _ _ _ H X) _ s s' Y). intros _ _ _ u u' Z. cbv zeta.
  match goal with |- context [set_scopes (scope_upsert sc x ?f ?v :: o) u] =>
    assert (Z' : state_like (set_scopes (scope_upsert sc x f v :: o) u) (set_scopes (scope_upsert sc' x' f v :: o') u')) end.
  { apply set_scopes_like; auto. constructor; auto. now apply upsert_like. }
  rewrite <- (global_like _ _ Z'). destruct (_ && _)%bool; split; auto. repeat split; auto. constructor. now apply name_text.
Qed.
Lemma sim_get_class : sim eq (rget class_type) (rget class_type).
Proof. intros s s' Y. split; auto. apply Y. Qed.
Lemma sim_get_function : sim eq (rget function_type) (rget function_type).
Proof. intros s s' Y. split; auto. apply Y. Qed.
Lemma class_kept t : keeping (set_class_type t) (set_class_type t).
Proof. intros s s' (A & B & C). repeat split; auto. Qed.
Lemma function_kept t : keeping (set_function_type t) (set_function_type t).
Proof. intros s s' (A & B & C). repeat split; auto. Qed.
Lemma sim_modify c c' : keeping c c' -> sim eq (rmodify c) (rmodify c').
Proof. intros H s s' Y. split; auto. Qed.
Lemma nil_literal e e' : expr_like R e e' -> is_nil_literal e = is_nil_literal e'.
Proof. now intros []. Qed.
Lemma sim_return e e' l l' : places_like R l l' -> expr_like R e e' -> sim eq (check_return e l) (check_return e' l').
Proof.
  intros H E. unfold check_return. eapply sim_bind; [apply sim_get_function|]. intros [] _ <-;
    rewrite <- ?(nil_literal _ _ E); try destruct (is_nil_literal e); try (now apply sim_ret); apply sim_fail; auto; apply KN.
Qed.
Lemma sim_super l l' : places_like R l l' -> sim eq (check_super l) (check_super l').
Proof.
  intros H. unfold check_super. eapply sim_bind; [apply sim_get_class|]. intros [] _ <-;
    try (now apply sim_ret); apply sim_fail; auto; apply KN.
Qed.
Lemma sim_this x x' l l' : places_like R l l' -> names_like R x x' -> sim eq (check_this x l) (check_this x' l').
Proof.
  intros H X. unfold check_this. eapply sim_bind; [apply sim_get_class|]. intros [] _ <-; try (now apply sim_ret).
  rewrite <- (name_eqb _ _ _ _ (named _ _ X) this_name). destruct (String.eqb x "this"); [|now apply sim_ret].
  apply sim_fail; auto; apply KN.
Qed.
Lemma sim_own x x' l l' : places_like R l l' -> name_like x x' ->
  sim eq (check_own_initializer x l) (check_own_initializer x' l').
Proof.
  intros H X s s' Y. unfold check_own_initializer. pose proof (proj1 Y) as V. destruct V as [|sc sc' o o' C V]; auto.
  rewrite <- (get_like _ _ _ _ C X). destruct (scope_get sc x) as [[i []]|]; cbn; split; auto.
  repeat split; auto. constructor. now apply name_text.
Qed.
Lemma sim_self n n' e e' : names_like R n n' -> option_like (expr_like R) e e' ->
  sim eq (check_self_inheritance n e) (check_self_inheritance n' e').
Proof.
  intros X [|a a' [] ]; cbn; try (now apply sim_ret).
  rewrite <- (name_eqb _ _ _ _ (named _ _ H) (named _ _ X)). destruct (String.eqb _ _); [|now apply sim_ret].
  apply sim_fail; auto. apply name_text. now left.
Qed.
Lemma sim_params ps ps' : Forall2 (param_like R) ps ps' ->
  sim (Forall2 eq) (rmap (fun p => define (p_name p) (p_loc p)) ps) (rmap (fun p => define (p_name p) (p_loc p)) ps').
Proof. intros H. eapply sim_map; [exact H|]. intros a a' _ [X L]. apply sim_define; auto. now left. Qed.

Definition statement_sim (st : stmt) : Prop := forall st', stmt_like R st st' ->
  sim (stmt_like R) (resolve_statement st) (resolve_statement st').
Definition expression_sim (e : expr) : Prop := forall e', expr_like R e e' ->
  sim (expr_like R) (resolve_expression e) (resolve_expression e').
Definition class_sim (c : class_def) : Prop := forall c', class_like R c c' ->
  sim (class_like R) (resolve_class c) (resolve_class c').
Definition fun_sim (f : fun_def) : Prop := forall t f', fun_like R f f' ->
  sim (fun_like R) (resolve_function f t) (resolve_function f' t).

Lemma sim_all {A B} (P : A -> A -> Prop) (Q : B -> B -> Prop) (f : A -> Resolver.R B) l l' :
  Forall (fun a => forall a', P a a' -> sim Q (f a) (f a')) l -> Forall2 P l l' -> sim (Forall2 Q) (rmap f l) (rmap f l').
Proof.
  intros H HL. eapply sim_map; [exact HL|]. intros a a' I. rewrite Forall_forall in H. now apply H.
Qed.

Ltac bind := lazymatch goal with
  | |- sim _ (rbind (resolve_expression _) _) _ => eapply sim_bind; [eauto|intros ? ? ?]
  | |- sim _ (rbind (resolve_statement _) _) _ => eapply sim_bind; [eauto|intros ? ? ?]
  | |- sim _ (rbind (resolve_class _) _) _ => eapply sim_bind; [eauto|intros ? ? ?]
  | |- sim _ (rbind (resolve_function _ _) _) _ => eapply sim_bind; [eauto|intros ? ? ?]
  | |- sim _ (rbind (rmap resolve_expression _) _) _ => eapply sim_bind; [eapply sim_all; eassumption|intros ? ? ?]
  | |- sim _ (rbind (rmap resolve_statement _) _) _ => eapply sim_bind; [eapply sim_all; eassumption|intros ? ? ?]
  | |- sim _ (rbind (resolve_local_variable "super" _) _) _ => eapply sim_bind; [apply sim_local; [assumption|apply super_name]|intros ? ? <-]
  | |- sim _ (rbind (resolve_local_variable _ _) _) _ => eapply sim_bind; [apply sim_local; [assumption|now left]|intros ? ? <-]
  | |- sim _ (rbind (declare _ _) _) _ => eapply sim_bind; [apply sim_declare; [assumption|now left]|intros ? ? <-]
  | |- sim _ (rbind (define "this" _) _) _ => eapply sim_bind; [apply sim_define; [assumption|apply this_name]|intros ? ? _]
  | |- sim _ (rbind (define _ _) _) _ => eapply sim_bind; [apply sim_define; [assumption|now left]|intros ? ? _]
  | |- sim _ (rbind (check_super _) _) _ => eapply sim_bind; [now apply sim_super|intros ? ? _]
  | |- sim _ (rbind (check_this _ _) _) _ => eapply sim_bind; [now apply sim_this|intros ? ? _]
  | |- sim _ (rbind (check_own_initializer _ _) _) _ => eapply sim_bind; [apply sim_own; [assumption|now left]|intros ? ? _]
  | |- sim _ (rbind (check_return _ _) _) _ => eapply sim_bind; [now apply sim_return|intros ? ? _]
  | |- sim _ (rbind (check_self_inheritance _ _) _) _ => eapply sim_bind; [now apply sim_self|intros ? ? _]
  | |- sim _ (rbind begin_scope _) _ => eapply sim_bind; [apply sim_begin|intros ? ? _]
  | |- sim _ (rbind (rget class_type) _) _ => eapply sim_bind; [apply sim_get_class|intros ? ? <-]
  | |- sim _ (rbind (rget function_type) _) _ => eapply sim_bind; [apply sim_get_function|intros ? ? <-]
  | |- sim _ (rbind (rmodify (set_class_type _)) _) _ => eapply sim_bind; [apply sim_modify, class_kept|intros ? ? _]
  | |- sim _ (rbind (rmodify (set_function_type _)) _) _ => eapply sim_bind; [apply sim_modify, function_kept|intros ? ? _]
  | |- sim _ (rfinally _ end_scope) _ => apply sim_finally; [apply end_like|]
  | |- sim _ (rfinally _ (set_class_type _)) _ => apply sim_finally; [apply class_kept|]
  | |- sim _ (rret _) _ => apply sim_ret; constructor; auto
  end.
Ltac cases := match goal with
  | H : stmt_like R _ ?x |- _ => is_var x; inversion H; subst; clear H
  | H : expr_like R _ ?x |- _ => is_var x; inversion H; subst; clear H
  | H : class_like R _ ?x |- _ => is_var x; inversion H; subst; clear H
  | H : fun_like R _ ?x |- _ => is_var x; inversion H; subst; clear H
  end.

Lemma resolver_sim : (forall st, statement_sim st) /\ (forall e, expression_sim e) /\
  (forall c, class_sim c) /\ (forall f, fun_sim f).
Proof.
  apply tree_ind; unfold statement_sim, expression_sim, class_sim, fun_sim; intros; cases;
    try solve [cbn [resolve_statement resolve_expression resolve_class resolve_function]; repeat bind].
  - (* class *)
    cbn [resolve_statement]. bind.
    match goal with HC : class_like R ?c ?d |- _ =>
      assert (match c with ClassDef _ (Some _) _ _ => Subclass | ClassDef _ None _ _ => PlainClass end
            = match d with ClassDef _ (Some _) _ _ => Subclass | ClassDef _ None _ _ => PlainClass end) as <-
        by (destruct HC as [? ? ? ? ? ? ? ? ? []]; reflexivity) end.
    repeat bind.
  - (* named function *)
    match goal with HN : named_like R _ _ |- _ => inversion HN; subst; clear HN end.
    cbn [resolve_statement].
    match goal with HF : fun_like R ?a ?b |- context [resolve_function ?a _] => pose proof HF as HF'; destruct HF' end.
    bind. repeat bind. constructor; auto.
  - (* if *)
    cbn [resolve_statement]. bind. bind.
    eapply sim_bind; [eapply sim_opt; [eassumption|intros z z' -> HA; cbn in *; eauto]|intros ? ? ?]. bind.
  - (* map *)
    cbn [resolve_expression]. eapply sim_bind.
    + eapply sim_map with (Q := entry_like R (expr_like R)); [eassumption|]. intros a a' I HE.
      match goal with HF : Forall _ m |- _ => rewrite Forall_forall in HF; specialize (HF _ I) end.
      destruct HE as [k k' e e' K E]. cbn [snd] in *. repeat bind.
    + intros ? ? ?. bind.
  - (* class *)
    cbn [resolve_class]. bind. bind.
    eapply sim_bind with (P := option_like (expr_like R)).
    { eapply sim_opt; [eassumption|]. intros z z' -> HA. cbn in *. bind. bind.
      intros u u' Y. pose proof (sim_define "super" "super" l l' ltac:(assumption) super_name u u' Y) as D.
      destruct (define "super" l u), (define "super" l' u'); try contradiction; auto; destruct D; split; auto. now apply end_like. }
    intros s1 s1' HS. bind. eapply sim_bind with (P := Forall2 (named_like R)).
    { apply sim_finally.
      - intros u u' Y. match goal with HO : option_like _ s _ |- _ => destruct HO end; cbv zeta; repeat apply end_like; auto.
      - bind. eapply sim_map; [eassumption|]. intros z z' I HE.
        match goal with HF : Forall _ ms |- _ => rewrite Forall_forall in HF; specialize (HF _ I) end.
        destruct HE as [x x' f f' X F]. cbn [Pn] in *.
        rewrite <- (method_like _ _ X). repeat bind. }
    intros m1 m1' HM. bind.
  - (* function *)
    cbn [resolve_function]. bind. bind. bind. apply sim_finally.
    { intros u u' Y. now apply function_kept, end_like. }
    eapply sim_bind; [now apply sim_params|intros _ _ _]. repeat bind.
Qed.

Lemma snoc {A} (P : A -> A -> Prop) l l' a a' : Forall2 P l l' -> P a a' -> Forall2 P (l ++ [a]) (l' ++ [a']).
Proof. intros. apply Forall2_app; auto. Qed.
Lemma loop_like l l' : Forall2 (stmt_like R) l l' -> forall done done' errs errs' s s',
  Forall2 (stmt_like R) done done' -> Forall2 (error_like R W) errs errs' -> state_like s s' ->
  match resolve_loop l done errs s, resolve_loop l' done' errs' s' with
  | Done (d, e, u), Done (d', e', u') => Forall2 (stmt_like R) d d' /\ Forall2 (error_like R W) e e' /\ state_like u u'
  | Panicked w, Panicked w' => w = w'
  | _, _ => False
  end.
Proof.
  induction 1 as [|st st' l l' X H IH]; intros done done' errs errs' s s' D E Y; cbn; auto.
  pose proof (proj1 resolver_sim st st' X s s' Y) as Z.
  destruct (resolve_statement st s), (resolve_statement st' s'); try contradiction; auto; destruct Z; apply IH; auto;
    now apply snoc.
Qed.
Lemma resolver_like l l' s s' : Forall2 (stmt_like R) l l' -> state_like s s' ->
  match resolver_resolve l s, resolver_resolve l' s' with
  | Done (r, u), Done (r', u') => results_like R W (Forall2 (stmt_like R)) (Done r) (Done r') /\ state_like u u'
  | Panicked w, Panicked w' => w = w'
  | _, _ => False
  end.
Proof.
  intros H Y. unfold resolver_resolve.
  pose proof (loop_like l l' H nil nil nil nil s s' (Forall2_nil _) (Forall2_nil _) Y) as X.
  destruct (resolve_loop l nil nil s) as [[[d e] u]| | |], (resolve_loop l' nil nil s') as [[[d' e'] u']| | |];
    cbn; try contradiction; auto.
  destruct X as (D & M & Z). split; auto. destruct M; cbn; auto.
Qed.
Lemma new_like s : resolver_new = Done s -> state_like s s.
Proof. vm_compute. intros [= <-]. repeat constructor. Qed.
Lemma resolve_like l l' : Forall2 (stmt_like R) l l' -> results_like R W (Forall2 (stmt_like R)) (resolve l) (resolve l').
Proof.
  intros E. unfold resolve. destruct resolver_new as [s| | |] eqn:N; cbn; auto; try (vm_compute in N; discriminate).
  pose proof (resolver_like l l' s s E (new_like s N)) as H.
  destruct (resolver_resolve l s) as [[r s1]| | |], (resolver_resolve l' s) as [[r' s1']| | |]; cbn in *; try contradiction; auto.
  apply H.
Qed.
End Like.
