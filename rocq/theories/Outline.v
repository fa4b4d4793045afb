(** The resolver follows the outline of a program (C102). *)
From Verif Require Import Base F64 Token Ast Resolver AstInd SpecOutline SpecPlace RelabelResolve.
Local Open Scope string_scope.
Local Open Scope list_scope.

(** ** Following an outline *)
Definition seq (m n : R (list cell)) : R (list cell) := rlet a <- m ;; rlet b <- n ;; rret (a ++ b).
Definition quiet {A} (m : R A) : R (list cell) := rdo m ;; rret nil.
Definition one {A} (f : A -> cell) (m : R A) : R (list cell) := rlet v <- m ;; rret [f v].

Definition follow_function (t : rfun_type) (ps : list (string * source_loc)) (body : R (list cell)) : R (list cell) :=
  rlet enclosing <- rget function_type ;;
  rdo rmodify (set_function_type t) ;;
  rdo begin_scope ;;
  rfinally (rdo rmap (fun p => define (fst p) (snd p)) ps ;; body)
           (fun s => set_function_type enclosing (end_scope s)).

Fixpoint follow (e : event) : R (list cell) :=
  let follow_all := fix go (es : list event) : R (list cell) :=
    match es with nil => rret nil | e :: r => seq (follow e) (go r) end in
  match e with
  | Reads x l => rdo check_this x l ;; rdo check_own_initializer x l ;; one At (resolve_local_variable x l)
  | Writes x l => one At (resolve_local_variable x l)
  | Supers l => rdo check_super l ;; one At (resolve_local_variable "super" l)
  | Returns b l => quiet (check_return (if b then ENil else EBool true) l)
  | Declares x l => one Slot (declare x l)
  | Defines x l => quiet (define x l)
  | InBlock es => rdo begin_scope ;; rfinally (follow_all es) end_scope
  | InFunction ps es => follow_function RPlain ps (follow_all es)
  | InClass x l super ms =>
    rlet enclosing <- rget class_type ;;
    rdo rmodify (set_class_type (match super with Some _ => Subclass | None => PlainClass end)) ;;
    rfinally
      (rdo define x l ;;
       rlet a <- match super with
                 | None => rret nil
                 | Some (own, es) =>
                   rdo match own with
                       | Some p => rfail (cause_at p x "A class cannot inherit from itself.")
                       | None => rret tt
                       end ;;
                   rlet a <- follow_all es ;;
                   rdo begin_scope ;;
                   (fun s => match define "super" l s with
                             | ROk _ s1 => ROk a s1
                             | RErr c s1 => RErr c (end_scope s1)
                             | RPanic w => RPanic w
                             end)
                 end ;;
       rdo begin_scope ;;
       rlet b <- rfinally
         (rdo define "this" l ;;
          (fix go (ms : list (bool * list (string * source_loc) * list event)) : R (list cell) :=
             match ms with
             | nil => rret nil
             | (init, ps, es) :: r => seq (follow_function (if init then RInitializer else RMethod) ps (follow_all es)) (go r)
             end) ms)
         (fun s => let s1 := end_scope s in match super with Some _ => end_scope s1 | None => s1 end) ;;
       rret (a ++ b))
      (set_class_type enclosing)
  end.
Definition follow_all : list event -> R (list cell) :=
  fix go es := match es with nil => rret nil | e :: r => seq (follow e) (go r) end.
Definition follow_methods : list (bool * list (string * source_loc) * list event) -> R (list cell) :=
  fix go ms := match ms with
    | nil => rret nil
    | (init, ps, es) :: r => seq (follow_function (if init then RInitializer else RMethod) ps (follow_all es)) (go r)
    end.

(** ** The resolver against its outline *)
Definition shows {A} (p : list cell) (f : A -> list cell) (m : R A) (n : R (list cell)) : Prop :=
  forall s, match m s, n s with
            | ROk a s1, ROk v s2 => f a = p ++ v /\ s1 = s2
            | RErr c s1, RErr c' s2 => c = c' /\ s1 = s2
            | RPanic w, RPanic w' => w = w'
            | _, _ => False
            end.

Lemma seq_nil : forall n s, seq n (rret nil) s = n s.
Proof. intros n s. unfold seq, rbind, rret. destruct (n s); auto. now rewrite app_nil_r. Qed.
Lemma follow_app : forall a b s, follow_all (a ++ b) s = seq (follow_all a) (follow_all b) s.
Proof.
  induction a as [|e a IH]; intros b s; cbn [app follow_all].
  - unfold seq, rbind, rret. destruct (follow_all b s); auto.
  - change (seq (follow e) (follow_all (a ++ b)) s = seq (seq (follow e) (follow_all a)) (follow_all b) s).
    unfold seq, rbind, rret in *. destruct (follow e s) as [v s1| |]; auto. rewrite IH.
    destruct (follow_all a s1) as [v' s2| |]; auto. destruct (follow_all b s2); auto. now rewrite app_assoc.
Qed.
Lemma shows_eq : forall A p (f : A -> list cell) m n n', (forall s, n s = n' s) -> shows p f m n -> shows p f m n'.
Proof. intros A p f m n n' E H s. rewrite <- E. apply H. Qed.
Lemma shows_seq : forall A B p f g (m : R A) (k : A -> R B) n n2,
  shows nil f m n -> (forall a, shows (p ++ f a) g (k a) n2) -> shows p g (rbind m k) (seq n n2).
Proof.
  intros A B p f g m k n n2 H1 H2 s. specialize (H1 s). unfold rbind, seq, rret, rbind.
  destruct (m s) as [a s1|c s1|w], (n s) as [v s2|c2 s2|w2]; try contradiction; auto.
  destruct H1 as [E ->]. cbn in E. specialize (H2 a s2).
  destruct (k a s2), (n2 s2); try contradiction; auto. destruct H2 as [E2 ->]. split; auto.
  rewrite E2, E, app_assoc. auto.
Qed.
Lemma shows_ret : forall A p f (a : A), f a = p -> shows p f (rret a) (rret nil).
Proof. intros A p f a E s. cbn. split; auto. now rewrite app_nil_r. Qed.
Lemma shows_last : forall A B p f g (m : R A) (k : A -> B) n,
  shows nil f m n -> (forall a, g (k a) = p ++ f a) -> shows p g (rlet a <- m ;; rret (k a)) n.
Proof.
  intros A B p f g m k n H1 H2. eapply shows_eq; [apply seq_nil|]. eapply shows_seq; [eassumption|].
  intros a. apply shows_ret. apply H2.
Qed.
Lemma shows_app : forall A B p f g (m : R A) (k : A -> R B) x y,
  shows nil f m (follow_all x) -> (forall a, shows (p ++ f a) g (k a) (follow_all y)) ->
  shows p g (rbind m k) (follow_all (x ++ y)).
Proof.
  intros A B p f g m k x y H1 H2. eapply shows_eq; [intros s; symmetry; apply follow_app|]. eapply shows_seq; eassumption.
Qed.
Lemma shows_cons : forall A B p f g (m : R A) (k : A -> R B) e y,
  shows nil f m (follow e) -> (forall a, shows (p ++ f a) g (k a) (follow_all y)) ->
  shows p g (rbind m k) (follow_all (e :: y)).
Proof. intros. cbn. eapply shows_seq; eassumption. Qed.
Lemma shows_one : forall A p (f : A -> list cell) m e, shows p f m (follow e) -> shows p f m (follow_all [e]).
Proof. intros A p f m e H. eapply shows_eq; [|exact H]. intros s. cbn. symmetry. apply seq_nil. Qed.
Lemma shows_same : forall A p (f : A -> list cell) g (m : R A), (forall a, g a = p ++ f a) ->
  shows p g m (rlet v <- m ;; rret (f v)).
Proof. intros A p f g m E s. unfold rbind, rret. destruct (m s); auto. Qed.
Lemma shows_quiet : forall A (m : R A), shows nil (fun _ => nil) m (quiet m).
Proof. intros A m s. unfold quiet, rbind, rret. destruct (m s); auto. Qed.
Lemma shows_do : forall A B p g (m : R A) (k : A -> R B) (n : A -> R (list cell)),
  (forall a, shows p g (k a) (n a)) -> shows p g (rbind m k) (rbind m n).
Proof. intros A B p g m k n H s. unfold rbind. destruct (m s); auto. apply H. Qed.
Lemma shows_finally : forall A p g (m : R A) n c, shows p g m n -> shows p g (rfinally m c) (rfinally n c).
Proof.
  intros A p g m n c H s. unfold rfinally. specialize (H s).
  destruct (m s), (n s); try contradiction; auto; destruct H as [E ->]; auto.
Qed.
Lemma shows_map : forall A B (f : A -> R B) (o : A -> list event) (g : B -> list cell) l,
  Forall (fun a => shows nil g (f a) (follow_all (o a))) l ->
  shows nil (flat_map g) (rmap f l) (follow_all (flat_map o l)).
Proof.
  induction 1 as [|a l Ha _ IH]; cbn.
  - apply shows_ret. reflexivity.
  - eapply shows_app; [exact Ha|]. intros b. eapply shows_last; [exact IH|]. intros r. reflexivity.
Qed.

Definition fun_cells (f : fun_def) : list cell := match f with FunDef _ b _ _ => flat_map cells b end.
Definition method_cells (m : named_fun) : list cell :=
  match m with NamedFun _ (FunDef _ b _ _) => flat_map cells b end.
Definition method_outline (m : named_fun) : bool * list (string * source_loc) * list event :=
  match m with NamedFun n (FunDef ps b _ _) => (n =? "init", map parameter ps, flat_map outline b) end.
Lemma shows_more : forall A p (f : A -> list cell) m n, shows nil f m n -> shows p (fun a => p ++ f a) m n.
Proof. intros A p f m n H s. specialize (H s). destruct (m s), (n s); auto. destruct H as [-> ->]. auto. Qed.
Lemma shows_let : forall A B p f g (m : R A) (k : A -> R B) n n2,
  shows nil f m n -> (forall a, shows p g (k a) (n2 (f a))) -> shows p g (rbind m k) (rbind n n2).
Proof.
  intros A B p f g m k n n2 H1 H2 s. specialize (H1 s). unfold rbind.
  destruct (m s) as [a s1|c s1|w], (n s) as [v s2|c2 s2|w2]; try contradiction; auto.
  destruct H1 as [E ->]. cbn in E. rewrite <- E. apply H2.
Qed.
Lemma shows_assoc : forall A B C p g (m : R A) (k : A -> R B) (k2 : B -> R C) n,
  shows p g (rbind (rbind m k) k2) n -> shows p g (rbind m (fun a => rbind (k a) k2)) n.
Proof. intros A B C p g m k k2 n H s. specialize (H s). unfold rbind in *. destruct (m s); auto. Qed.
Lemma shows_params : forall A B p g (m m' : R A) (k : A -> R B) (n : A -> R (list cell)),
  (forall s, m' s = m s) -> (forall a, shows p g (k a) (n a)) -> shows p g (rbind m k) (rbind m' n).
Proof. intros A B p g m m' k n E H s. unfold rbind. rewrite E. destruct (m s); auto. apply H. Qed.
Definition super_cells (o : option expr) : list cell := match o with Some e => expr_cells e | None => nil end.
Definition class_cells (c : class_def) : list cell :=
  match c with ClassDef _ o ms _ => super_cells o ++ flat_map method_cells ms end.
Definition shows_fun (f : fun_def) : Prop := forall t,
  shows nil fun_cells (resolve_function f t)
    (match f with FunDef ps b _ _ => follow_function t (map parameter ps) (follow_all (flat_map outline b)) end).
Definition shows_class (c : class_def) : Prop :=
  shows nil cells (resolve_statement (SClass c)) (follow_all (outline (SClass c))).
Definition shows_stmt (st : stmt) : Prop := shows nil cells (resolve_statement st) (follow_all (outline st)).
Definition shows_expr (e : expr) : Prop := shows nil expr_cells (resolve_expression e) (follow_all (expr_outline e)).

Lemma define_parameters : forall ps s,
  rmap (fun p => define (fst p) (snd p)) (map parameter ps) s = rmap (fun p => define (p_name p) (p_loc p)) ps s.
Proof.
  induction ps as [|p ps IH]; intros s; auto. cbn [map rmap]. unfold rbind. cbn.
  destruct (define (p_name p) (p_loc p) s); auto. now rewrite IH.
Qed.

Lemma follows :
  (forall st, shows_stmt st) /\ (forall e, shows_expr e) /\ (forall c, shows_class c) /\ (forall f, shows_fun f).
Proof.
  apply tree_ind; unfold shows_stmt, shows_expr.
  - intros b H. cbn [outline]. apply shows_one. cbn. apply shows_do. intros ?. apply shows_finally.
    eapply shows_last; [apply shows_map; exact H|]. reflexivity.
  - intros l. apply shows_ret. reflexivity.
  - intros c H. exact H.
  - intros l. apply shows_ret. reflexivity.
  - intros e H. cbn. eapply shows_last; [exact H|]. reflexivity.
  - intros n [ps b ft l] H. cbn [outline resolve_statement].
    eapply shows_cons; [apply shows_quiet|]. intros ?. apply shows_one.
    eapply shows_last; [apply (H RPlain)|]. intros [ps' b' ft' l']. reflexivity.
  - intros c t e Hc Ht He. cbn [outline resolve_statement]. eapply shows_app; [exact Hc|]. intros c'.
    eapply shows_app; [exact Ht|]. intros t'. destruct e as [e|]; cbn [ropt].
    + eapply shows_last with (f := fun o => match o with Some s => cells s | None => nil end).
      * eapply shows_last; [exact He|]. reflexivity.
      * intros o. cbn. now rewrite app_assoc.
    + intros s. cbn. now rewrite !app_nil_r.
  - intros e H. cbn. eapply shows_last; [exact H|]. reflexivity.
  - intros e l H. cbn [outline resolve_statement]. eapply shows_cons with (f := fun _ => nil).
    + cbn. eapply shows_eq; [|apply shows_quiet]. intros s. unfold quiet, rbind, check_return, rget, rbind.
      destruct (function_type s); auto. destruct e; reflexivity.
    + intros ?. eapply shows_last; [exact H|]. reflexivity.
  - intros x i e l H. cbn [outline resolve_statement]. eapply shows_cons with (f := fun i => [Slot i]).
    + apply shows_same. reflexivity.
    + intros i'. eapply shows_app; [exact H|]. intros e'. apply shows_one. cbn.
      eapply shows_last; [apply shows_quiet|]. intros ?. cbn. now rewrite app_nil_r.
  - intros c b Hc Hb. cbn [outline resolve_statement]. eapply shows_app; [exact Hc|]. intros c'.
    eapply shows_last; [exact Hb|]. reflexivity.
  - intros c b i Hc Hb Hi. cbn [outline resolve_statement]. eapply shows_app; [exact Hc|]. intros c'.
    eapply shows_app; [exact Hb|]. intros b'. eapply shows_last; [exact Hi|]. intros i'. cbn. now rewrite app_assoc.
  - intros x v e l H. cbn [expr_outline resolve_expression]. eapply shows_app; [exact H|]. intros e'. apply shows_one. cbn.
    eapply shows_last with (f := fun v => [At v]); [apply shows_same; reflexivity|]. reflexivity.
  - intros f args l Hf Ha. cbn [expr_outline resolve_expression]. eapply shows_app; [exact Hf|]. intros f'.
    eapply shows_last; [apply shows_map; exact Ha|]. reflexivity.
  - intros a op b l Ha Hb. cbn [expr_outline resolve_expression]. eapply shows_app; [exact Ha|]. intros a'.
    eapply shows_last; [exact Hb|]. reflexivity.
  - intros [ps b ft l] H. cbn [expr_outline resolve_expression]. apply shows_one. eapply shows_last; [apply (H RPlain)|].
    intros [ps' b' ft' l']. reflexivity.
  - intros e p l H. cbn. eapply shows_last; [exact H|]. reflexivity.
  - intros e i l He Hi. cbn [expr_outline resolve_expression]. eapply shows_app; [exact He|]. intros a'.
    eapply shows_last; [exact Hi|]. reflexivity.
  - intros e H. cbn. eapply shows_last; [exact H|]. reflexivity.
  - intros es H. cbn [expr_outline resolve_expression]. eapply shows_last; [apply shows_map; exact H|]. reflexivity.
  - intros b. apply shows_ret. reflexivity.
  - intros m H. cbn [expr_outline resolve_expression].
    eapply shows_last; [apply shows_map with (g := fun kv => match kv with (_, e) => expr_cells e end)|].
    + eapply Forall_impl; [|exact H]. intros [k e] He. cbn in *. eapply shows_last; [exact He|]. reflexivity.
    + reflexivity.
  - intros x. apply shows_ret. reflexivity.
  - apply shows_ret. reflexivity.
  - intros x. apply shows_ret. reflexivity.
  - intros a op b Ha Hb. cbn [expr_outline resolve_expression]. eapply shows_app; [exact Ha|]. intros a'.
    eapply shows_last; [exact Hb|]. reflexivity.
  - intros o p v l Ha Hb. cbn [expr_outline resolve_expression]. eapply shows_app; [exact Ha|]. intros a'.
    eapply shows_last; [exact Hb|]. reflexivity.
  - intros a i v l Ha Hb Hi. cbn [expr_outline resolve_expression]. eapply shows_app; [exact Ha|]. intros c'.
    eapply shows_app; [exact Hb|]. intros b'. eapply shows_last; [exact Hi|]. intros i'. cbn. now rewrite app_assoc.
  - intros v m l. apply shows_one. cbn [follow resolve_expression]. apply shows_do. intros ?.
    eapply shows_last with (f := fun v => [At v]); [apply shows_same; reflexivity|]. reflexivity.
  - intros x v l. apply shows_one. cbn [follow resolve_expression]. apply shows_do. intros ?. apply shows_do. intros ?.
    eapply shows_last with (f := fun v => [At v]); [apply shows_same; reflexivity|]. reflexivity.
  - intros op e l H. cbn. eapply shows_last; [exact H|]. reflexivity.
  - (* classes *)
    intros x super ms l Hs Hm. unfold shows_class. cbn [outline]. apply shows_one.
    assert (HM : forall p : list cell, shows p (fun ms' => p ++ flat_map method_cells ms')
       (rmap (fun m => match m with NamedFun n f => rlet f' <- resolve_function f (method_type n) ;; rret (NamedFun n f') end) ms)
       (follow_methods (map method_outline ms))).
    { intros p s. revert s. apply shows_more. clear Hs. induction Hm as [|[n [ps b ft fl]] ms H _ IH]; cbn [rmap map follow_methods].
      - apply shows_ret. reflexivity.
      - eapply shows_seq with (f := method_cells).
        + specialize (H (method_type n)). unfold method_type in *. destruct (n =? "init");
            (eapply shows_last; [exact H|]; intros [ps' b' ft' l']; reflexivity).
        + intros m'. eapply shows_last; [exact IH|]. intros r. reflexivity. }
    destruct super as [e|]; cbn [resolve_statement follow resolve_class]; fold follow_all; fold follow_methods;
      fold method_outline; apply shows_do; intros enclosing; apply shows_do; intros ?; apply shows_finally;
      (eapply shows_last with (f := class_cells); [|intros [y sp ms' l']; reflexivity]);
      apply shows_do; intros ?.
    + apply shows_assoc. eapply shows_let with (f := super_cells).
      * unfold check_self_inheritance, own_name.
        assert (HE : shows nil super_cells
           (ropt (fun e => rlet e' <- resolve_expression e ;;
              rdo begin_scope ;;
              (fun s => match define "super" l s with
                        | ROk _ s1 => ROk e' s1
                        | RErr c s1 => RErr c (end_scope s1)
                        | RPanic w => RPanic w
                        end)) (Some e))
           (rlet a <- follow_all (expr_outline e) ;;
              rdo begin_scope ;;
              (fun s => match define "super" l s with
                        | ROk _ s1 => ROk a s1
                        | RErr c s1 => RErr c (end_scope s1)
                        | RPanic w => RPanic w
                        end))).
        { cbn [ropt]. eapply shows_last with (f := expr_cells); [|reflexivity].
          eapply shows_let with (f := expr_cells); [exact Hs|]. intros e'. apply shows_do. intros ? s.
          destruct (define "super" l s); auto. }
        destruct e; try exact HE. destruct (x0 =? x)%string eqn:Q.
        -- apply String.eqb_eq in Q. subst x0. intros s. cbn. auto.
        -- exact HE.
      * intros o. apply shows_do. intros ?. eapply shows_let with (f := flat_map method_cells).
        -- apply shows_finally. apply shows_do. intros ?. exact (HM nil).
        -- intros ms' s. cbn. auto.
    + apply shows_assoc. eapply shows_let with (f := super_cells); [intros s; cbn; auto|].
      intros o. apply shows_do. intros ?. eapply shows_let with (f := flat_map method_cells).
      * apply shows_finally. apply shows_do. intros ?. exact (HM nil).
      * intros ms' s. cbn. auto.
  - intros ps b ft l H t. cbn [resolve_function]. unfold follow_function. apply shows_do. intros enclosing. apply shows_do. intros ?.
    apply shows_do. intros ?. apply shows_finally. apply shows_params; [apply define_parameters|]. intros ?.
    eapply shows_last; [apply shows_map; exact H|]. reflexivity.
Qed.

(** ** Programs *)
Definition same_cells (a b : list stmt) : Prop := flat_map cells a = flat_map cells b.
Lemma loop_outline : forall l l' d d' errs s, map outline l = map outline l' -> same_cells d d' ->
  match resolve_loop l d errs s, resolve_loop l' d' errs s with
  | Done (a, e, s1), Done (a', e', s2) => same_cells a a' /\ e = e' /\ s1 = s2
  | Panicked w, Panicked w' => w = w'
  | _, _ => False
  end.
Proof.
  induction l as [|st l IH]; intros [|st' l'] d d' errs s E D; try discriminate; cbn [resolve_loop]; auto.
  injection E as E1 E2. pose proof (proj1 follows st s) as H. pose proof (proj1 follows st' s) as H'. rewrite <- E1 in H'.
  destruct (resolve_statement st s) as [a s1|c s1|w], (follow_all (outline st) s) as [v s2|c2 s2|w2]; try contradiction;
    destruct (resolve_statement st' s) as [a' s3|c3 s3|w3]; try contradiction.
  - destruct H as [H ->], H' as [H' ->]. apply IH; auto. unfold same_cells in *. rewrite !flat_map_app. cbn.
    rewrite H, H', D. reflexivity.
  - destruct H as [-> ->], H' as [-> ->]. apply IH; auto.
  - congruence.
Qed.
Lemma outline_session : forall l l' s, map outline l = map outline l' ->
  match resolver_resolve l s, resolver_resolve l' s with
  | Done (Ok a, s1), Done (Ok a', s2) => flat_map cells a = flat_map cells a' /\ s1 = s2
  | Done (Err e, s1), Done (Err e', s2) => e = e' /\ s1 = s2
  | Panicked w, Panicked w' => w = w'
  | _, _ => False
  end.
Proof.
  intros l l' s E. unfold resolver_resolve. pose proof (loop_outline l l' nil nil nil s E eq_refl) as H.
  destruct (resolve_loop l nil nil s) as [[[d e] s1]| | |], (resolve_loop l' nil nil s) as [[[d' e'] s1']| | |];
    cbn; try contradiction; auto.
  destruct H as (D & <- & ->). destruct e; auto.
Qed.
Lemma outline_resolve : forall l l', map outline l = map outline l' ->
  match resolve l, resolve l' with
  | Done (Ok a), Done (Ok a') => flat_map cells a = flat_map cells a'
  | Done (Err e), Done (Err e') => e = e'
  | Panicked w, Panicked w' => w = w'
  | _, _ => False
  end.
Proof.
  intros l l' E. unfold resolve. destruct resolver_new as [s| | |] eqn:N; try (vm_compute in N; discriminate). cbn [obind].
  pose proof (outline_session l l' s E) as H.
  destruct (resolver_resolve l s) as [[[a|e] s1]| | |], (resolver_resolve l' s) as [[[a'|e'] s1']| | |]; cbn in *;
    try contradiction; tauto.
Qed.

(** ** Wherever the programs stand *)
Lemma map_twice : forall A (f : A -> A) l, Forall (fun a => f (f a) = f a) l -> map f (map f l) = map f l.
Proof. induction 1; cbn; congruence. Qed.
Lemma unplaced_twice :
  (forall st, unplaced (unplaced st) = unplaced st) /\ (forall e, unplaced_expr (unplaced_expr e) = unplaced_expr e) /\
  (forall c, unplaced_class (unplaced_class c) = unplaced_class c) /\ (forall f, unplaced_fun (unplaced_fun f) = unplaced_fun f).
Proof.
  apply tree_ind; intros; cbn; auto; try (f_equal; auto using map_twice; fail).
  - congruence.
  - f_equal; auto. destruct e as [e|]; cbn in *; congruence.
  - f_equal. induction H as [|[k e] m H _ IH]; cbn in *; congruence.
  - f_equal; [destruct s as [s|]; cbn in *; congruence|].
    induction H0 as [|[k f] m Hf _ IH]; cbn in *; congruence.
  - f_equal; auto using map_twice. rewrite map_map. reflexivity.
Qed.
Lemma flat_cells : forall A (f : A -> A) (g : A -> list cell) l, Forall (fun a => g (f a) = g a) l -> flat_map g (map f l) = flat_map g l.
Proof. induction 1; cbn; congruence. Qed.
Lemma cells_unplaced :
  (forall st, cells (unplaced st) = cells st) /\ (forall e, expr_cells (unplaced_expr e) = expr_cells e) /\
  (forall c, cells (unplaced (SClass c)) = cells (SClass c)) /\ (forall f, fun_cells (unplaced_fun f) = fun_cells f).
Proof.
  apply tree_ind; intros; cbn; auto; try (f_equal; auto using flat_cells; fail); auto using flat_cells; try congruence.
  - f_equal; auto. f_equal; auto. destruct e as [e|]; cbn in *; auto.
  - induction H as [|[k e] m H _ IH]; cbn in *; congruence.
  - f_equal; [destruct s as [s|]; cbn in *; congruence|].
    induction H0 as [|[k [ps b ft fl]] m Hf _ IH]; cbn in *; auto. rewrite Hf. congruence.
Qed.
Lemma cells_all : forall l l', map unplaced l = map unplaced l' -> flat_map cells l = flat_map cells l'.
Proof.
  intros l l' E. rewrite <- (flat_cells _ unplaced cells l), <- (flat_cells _ unplaced cells l'), E; auto;
    apply Forall_forall; intros st _; apply cells_unplaced.
Qed.

Lemma message_trans : forall a b c, same_messages a b -> same_messages b c -> same_messages a c.
Proof.
  unfold same_messages. intros a b c H. revert c. induction H as [|x y a b E _ IH]; intros c K; inversion K; subst; constructor; auto.
  unfold same_message in *. intuition congruence.
Qed.
Lemma says_the_same_trans : forall x y z, says_the_same x y -> says_the_same y z -> says_the_same x z.
Proof.
  intros x y z. destruct x as [[[a|e] s]| | |], y as [[[a'|e'] s']| | |], z as [[[a''|e''] s'']| | |]; cbn; try contradiction;
    intuition try congruence. eauto using message_trans.
Qed.
Lemma placed_result : forall l l' s, map unplaced l = map unplaced l' ->
  says_the_same (resolver_resolve l s) (resolver_resolve l' s).
Proof.
  intros l l' s E. pose proof (resolver_same l l' s E) as H.
  destruct (resolver_resolve l s) as [[[a|e] s1]| | |], (resolver_resolve l' s) as [[[a'|e'] s1']| | |]; cbn in *;
    try contradiction; intuition auto using cells_all.
Qed.
Lemma unplaced_again : forall l, map unplaced (map unplaced l) = map unplaced l.
Proof. intros l. apply map_twice. apply Forall_forall. intros st _. apply unplaced_twice. Qed.
Lemma messages_refl : forall e, same_messages e e.
Proof. induction e; constructor; auto. split; auto. Qed.
Lemma outline_unplaced : forall l l' s, map outline (map unplaced l) = map outline (map unplaced l') ->
  says_the_same (resolver_resolve l s) (resolver_resolve l' s).
Proof.
  intros l l' s E. eapply says_the_same_trans; [apply placed_result; symmetry; apply unplaced_again|].
  eapply says_the_same_trans; [|apply placed_result; apply unplaced_again].
  pose proof (outline_session _ _ s E) as H.
  destruct (resolver_resolve (map unplaced l) s) as [[[a|e] s1]| | |], (resolver_resolve (map unplaced l') s) as [[[a'|e'] s1']| | |];
    cbn in *; try contradiction; intuition. subst. apply messages_refl.
Qed.
