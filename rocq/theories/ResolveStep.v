(** The resolver's state against the specification's contexts, and its
    primitive operations. *)
From Verif Require Import Base F64 Token Ast Resolver SpecResolve.
From Coq Require Import Lia.

(** ** Scopes with their entries in slot order *)
Fixpoint layout (st : string -> defined_state) (k : nat) (names : list string) : scope :=
  match names with
  | nil => nil
  | x :: r => (x, mkVar k (st x)) :: layout st (S k) r
  end.

Lemma layout_length : forall st names k, length (layout st k names) = length names.
Proof. induction names; cbn; intros; auto. Qed.
Lemma layout_names : forall st names k, map fst (layout st k names) = names.
Proof. induction names; cbn; intros; f_equal; auto. Qed.
Lemma layout_ext : forall st st' names k,
  (forall x, In x names -> st x = st' x) -> layout st k names = layout st' k names.
Proof.
  induction names as [|y r IH]; cbn; intros k H; auto.
  rewrite (H y) by auto. f_equal. apply IH. auto.
Qed.
Lemma layout_app : forall st a b k,
  layout st k (a ++ b) = layout st k a ++ layout st (k + length a) b.
Proof.
  induction a as [|x a IH]; cbn; intros b k.
  - now rewrite Nat.add_0_r.
  - rewrite IH. do 3 f_equal. lia.
Qed.

Lemma first_at_0 : forall x l, first_at (x :: l) 0 x.
Proof. split; cbn; auto. Qed.
Lemma first_at_S : forall x y l k, x <> y -> first_at l k x -> first_at (y :: l) (S k) x.
Proof. intros x y l k n [A B]. split; cbn; auto. intros [E|I]; [congruence | auto]. Qed.
Lemma first_at_In : forall l k x, first_at l k x -> In x l.
Proof. intros l k x [A _]. eauto using nth_error_In. Qed.
Lemma first_at_app : forall l r k x, first_at l k x -> first_at (l ++ r) k x.
Proof.
  intros l r k x [A B]. assert (k < length l) by (apply nth_error_Some; congruence).
  split; [rewrite nth_error_app1; auto|].
  rewrite firstn_app. replace (k - length l) with 0 by lia. cbn. now rewrite app_nil_r.
Qed.
Lemma first_at_end : forall l x, ~ In x l -> first_at (l ++ [x]) (length l) x.
Proof.
  intros. split.
  - rewrite nth_error_app2 by lia. now rewrite Nat.sub_diag.
  - rewrite firstn_app, Nat.sub_diag, firstn_all. cbn. now rewrite app_nil_r.
Qed.
Lemma first_at_fun : forall l j k x, first_at l j x -> first_at l k x -> j = k.
Proof.
  assert (W : forall l j k x, j < k -> first_at l j x -> first_at l k x -> False).
  { intros l j k x L [A _] [_ B]. apply B.
    apply nth_error_In with (n := j).
    clear B. revert l j L A. induction k; intros [|y l] [|j] L A; cbn in *; try lia; try easy.
    apply IHk; [lia | auto]. }
  intros l j k x A B. destruct (Nat.lt_trichotomy j k) as [L|[E|L]]; auto;
    exfalso; eauto.
Qed.

Lemma mem_In : forall x l, mem x l = true <-> In x l.
Proof. intros. unfold mem. destruct (in_dec _ x l); split; intros; auto; discriminate. Qed.
Lemma mem_not : forall x l, mem x l = false <-> ~ In x l.
Proof. intros. unfold mem. destruct (in_dec _ x l); split; intros; auto; try discriminate; contradiction. Qed.

Lemma get_layout : forall st x names k,
  (exists i, first_at names i x /\ scope_get (layout st k names) x = Some (mkVar (k + i) (st x))) \/
  (~ In x names /\ scope_get (layout st k names) x = None).
Proof.
  induction names as [|y r IH]; cbn; intros k; [right; auto|].
  destruct (String.eqb_spec y x) as [E|N].
  - subst. left. exists 0. split; [apply first_at_0 | now rewrite Nat.add_0_r].
  - destruct (IH (S k)) as [(i & F & E)|(F & E)].
    + left. exists (S i). split; [apply first_at_S; auto |].
      rewrite E. do 2 f_equal. lia.
    + right. split; auto. intros [H|H]; auto.
Qed.

Lemma upsert_new : forall st x f v names k, ~ In x names ->
  scope_upsert (layout st k names) x f v = layout st k names ++ [(x, v)].
Proof.
  induction names as [|y r IH]; cbn; intros k N; auto.
  destruct (String.eqb_spec y x) as [E|_]; [subst; tauto|].
  f_equal. apply IH. tauto.
Qed.
Lemma upsert_old : forall st x f v d names k, In x names -> NoDup names ->
  (forall i, f (mkVar i (st x)) = mkVar i d) ->
  scope_upsert (layout st k names) x f v =
  layout (fun y => if String.eqb y x then d else st y) k names.
Proof.
  induction names as [|y r IH]; cbn; intros k I N F; [contradiction|].
  inversion N as [|? ? N1 N2]; subst. destruct (String.eqb_spec y x) as [E|D].
  - subst. rewrite F. f_equal. apply layout_ext. intros z Hz.
    destruct (String.eqb_spec z x); [subst; contradiction | auto].
  - f_equal. apply IH; auto. destruct I; [contradiction | auto].
Qed.

(** ** The state of the resolver in a context *)
Definition local_state (blocked : list string) (x : string) : defined_state :=
  if mem x blocked then DeclaredVar else DefinedVar.
Definition global_state (blocked globals : list string) (x : string) : defined_state :=
  if mem x blocked then DeclaredVar
  else if mem x globals then DefinedVar else UndefinedVar.

(** [bs] has the blocked names of every scope, the innermost first. *)
Fixpoint stack_ok (G : list string) (locals bs : list (list string)) (globals : list string)
         (scs : list scope) : Prop :=
  match locals, bs, scs with
  | nil, [b], [g] =>
    g = layout (global_state b globals) 0 G /\ NoDup G /\ incl b G /\ incl globals G
  | sc :: ls, b :: bs', s :: scs' =>
    (s = layout (local_state b) 0 sc /\ NoDup sc /\ incl b sc) /\
    stack_ok G ls bs' globals scs'
  | _, _, _ => False
  end.

Definition fun_of (t : rfun_type) : fun_ctx :=
  match t with NoFunction => AtTop | RInitializer => InInit | RPlain | RMethod => InFunction end.
Definition class_of (t : rclass_type) : class_ctx :=
  match t with NoClass => OutsideClass | PlainClass => InClass | Subclass => InSubclass end.

Record agrees (ft : rfun_type) (G : list string) (bs : list (list string)) (c : ctx)
       (s : rstate) : Prop := mkAgrees {
  ag_stack : stack_ok G (c_locals c) (c_blocked c :: bs) (c_globals c) (scopes s);
  ag_ft : function_type s = ft;
  ag_fun : c_fun c = fun_of ft;
  ag_class : c_class c = class_of (class_type s);
  ag_depth : (N.of_nat (length (scopes s)) <= 65535)%N
}.

Lemma stack_nil : forall G bs globals scs, stack_ok G nil bs globals scs ->
  exists b, bs = [b] /\ scs = [layout (global_state b globals) 0 G] /\
    NoDup G /\ incl b G /\ incl globals G.
Proof.
  intros G [|b [|b2 bs]] globals [|g [|g2 scs]] H; cbn in H; try contradiction.
  destruct H as (-> & H). exists b. auto.
Qed.
Lemma stack_cons : forall G sc ls bs globals scs, stack_ok G (sc :: ls) bs globals scs ->
  exists b bs' scs', bs = b :: bs' /\ scs = layout (local_state b) 0 sc :: scs' /\
    NoDup sc /\ incl b sc /\ stack_ok G ls bs' globals scs'.
Proof.
  intros G sc ls [|b bs] globals [|s scs] H; cbn in H; try contradiction.
  destruct H as ((-> & N & I) & H). exists b, bs, scs. auto.
Qed.

Lemma stack_length : forall G locals bs globals scs,
  stack_ok G locals bs globals scs -> length scs = S (length locals).
Proof.
  induction locals as [|sc ls IH]; intros bs globals scs H.
  - apply stack_nil in H. destruct H as (b & -> & -> & _). reflexivity.
  - apply stack_cons in H. destruct H as (b & bs' & scs' & -> & -> & _ & _ & H).
    cbn. f_equal. eauto.
Qed.

(** ** What an operation does *)
Definition clash (G : list string) (c : ctx) (us xs : list string) (e : cause) : Prop :=
  (exists sc r, c_locals c = sc :: r /\ scope_error (sc ++ xs) e) \/
  (too_many (length (add_all G us)) /\
   exists l x, e = cause_at l x "Too many local variables in function.").

Definition prefix {A} (a b : list A) : Prop := exists r, b = a ++ r.
Lemma prefix_refl : forall A (a : list A), prefix a a.
Proof. intros. exists nil. now rewrite app_nil_r. Qed.
Lemma prefix_trans : forall A (a b c : list A), prefix a b -> prefix b c -> prefix a c.
Proof. intros A a b c [x X] [y Y]. subst. exists (x ++ y). now rewrite app_assoc. Qed.

(** From context [c] to context [c']; [us] are the globals mentioned, [xs] the
    names declared in the current scope; on an error [B] or a clash; on a
    panic [D]; on success [Q], for all extensions of the global table. *)
Definition good {A} (ft : rfun_type) (bs : list (list string)) (c c' : ctx)
           (us xs : list string) (B : cause -> Prop) (D : Prop)
           (Q : list string -> A -> Prop) (m : R A) : Prop :=
  forall G s, agrees ft G bs c s ->
  match m s with
  | ROk a s' =>
    agrees ft (add_all G us) bs c' s' /\
    (forall GG, prefix (add_all G us) GG -> Q GG a)
  | RErr e s' => B e \/ clash G c us xs e
  | RPanic _ => D
  end.

(** [c1] is [c] after declaring [xs]. *)
Definition step (c : ctx) (xs : list string) (c1 : ctx) : Prop :=
  match c_locals c, c_locals c1 with
  | nil, nil => True
  | sc :: _, sc1 :: _ => sc1 = sc ++ xs
  | _, _ => False
  end.

Lemma add_all_app : forall a b G, add_all G (a ++ b) = add_all (add_all G a) b.
Proof. induction a; cbn; auto. Qed.
Lemma add_all_prefix : forall xs G, prefix G (add_all G xs).
Proof.
  induction xs as [|x xs IH]; cbn; intros G; [apply prefix_refl|].
  destruct (mem x G); auto.
  eapply prefix_trans; [|apply IH]. now exists [x].
Qed.
Lemma prefix_length : forall A (a b : list A), prefix a b -> length a <= length b.
Proof. intros A a b [r E]. subst. rewrite app_length. lia. Qed.
Lemma too_many_mono : forall a b, a <= b -> too_many a -> too_many b.
Proof. unfold too_many. intros. lia. Qed.
Lemma scope_error_app : forall a b e, scope_error a e -> scope_error (a ++ b) e.
Proof.
  intros a b e (x & l & [((p & q & r & E) & H)|(H & E)]); exists x, l; [left | right]; split; auto.
  - exists p, q, (r ++ b). subst. repeat (rewrite <- ?app_assoc; cbn). reflexivity.
  - eapply too_many_mono; [|eauto]. rewrite app_length. lia.
Qed.

Lemma good_ret : forall A ft bs c (Q : list string -> A -> Prop) a,
  (forall G, Q G a) -> good ft bs c c nil nil (fun _ => False) False Q (rret a).
Proof. intros A ft bs c Q a H G s Ha. cbn. split; auto. Qed.

Lemma good_bind : forall A B ft bs c c1 c2 us1 us2 xs1 xs2 B1 B2 (D1 D2 : Prop)
  (Q1 : list string -> A -> Prop) (Q2 : list string -> B -> Prop)
  (m : R A) (f : A -> R B),
  good ft bs c c1 us1 xs1 B1 D1 Q1 m ->
  step c xs1 c1 ->
  (forall a, good ft bs c1 c2 us2 xs2 B2 D2 (fun G b => Q1 G a -> Q2 G b) (f a)) ->
  good ft bs c c2 (us1 ++ us2) (xs1 ++ xs2) (fun e => B1 e \/ B2 e) (D1 \/ D2) Q2 (rbind m f).
Proof.
  intros A B ft bs c c1 c2 us1 us2 xs1 xs2 B1 B2 D1 D2 Q1 Q2 m f H1 HS H2 G s Ha.
  specialize (H1 G s Ha). unfold rbind. destruct (m s) as [a s1|e s1|w]; [|destruct H1 as [H|H]|].
  - destruct H1 as [Ha1 HQ1]. specialize (H2 a _ _ Ha1).
    destruct (f a s1) as [b s2|e s2|w]; [|destruct H2 as [H|H]|].
    + destruct H2 as [Ha2 HQ2]. rewrite add_all_app. split; auto.
      intros GG P. apply HQ2; auto. apply HQ1. eapply prefix_trans; [|eauto].
      apply add_all_prefix.
    + auto.
    + right. destruct H as [(sc & r & L & E)|(T & E)].
      * left. unfold step in HS. rewrite L in HS.
        destruct (c_locals c) as [|sc0 r0]; [contradiction|]. subst.
        exists sc0, r0. split; auto. now rewrite app_assoc.
      * right. rewrite add_all_app. auto.
    + auto.
  - auto.
  - right. destruct H as [(sc & r & L & E)|(T & E)].
    + left. exists sc, r. split; auto. rewrite app_assoc. now apply scope_error_app.
    + right. split; auto. rewrite add_all_app. eapply too_many_mono; [|eauto].
      apply prefix_length, add_all_prefix.
  - auto.
Qed.

Lemma good_conv : forall A ft bs c c' us us' xs xs' (B B' : cause -> Prop) (D D' : Prop)
  (Q Q' : list string -> A -> Prop) (m : R A),
  good ft bs c c' us xs B D Q m ->
  us = us' -> xs = xs' -> (forall e, B e -> B' e) -> (D -> D') ->
  (forall G a, Q G a -> Q' G a) ->
  good ft bs c c' us' xs' B' D' Q' m.
Proof.
  intros A ft bs c c' us us' xs xs' B B' D D' Q Q' m H E1 E2 HB HD HQ G s Ha. subst.
  specialize (H G s Ha). destruct (m s) as [a s1|e s1|w]; auto.
  - destruct H. split; auto.
  - destruct H; auto.
Qed.

Lemma step_refl : forall c, step c nil c.
Proof. intros. unfold step. destruct (c_locals c); auto. now rewrite app_nil_r. Qed.
Lemma step_declare : forall xs c, step c xs (declare_names xs c).
Proof. intros. unfold step, declare_names. destruct (c_locals c); cbn; auto. Qed.

Lemma filter_none : forall xs (b : list string),
  (forall x, In x b -> ~ In x xs) -> filter (fun x => negb (mem x xs)) b = b.
Proof.
  induction b as [|y b IH]; cbn; intros H; auto.
  destruct (mem y xs) eqn:E; cbn.
  - apply mem_In in E. exfalso. eapply H; eauto.
  - f_equal. apply IH. auto.
Qed.
Lemma declare_none : forall c, declare_names nil c = c.
Proof.
  intros [f k b l g]. unfold declare_names. cbn [c_fun c_class c_blocked c_locals c_globals].
  rewrite filter_none by auto.
  destruct l; now rewrite app_nil_r.
Qed.
Lemma filter_filter : forall A (p q : A -> bool) l,
  filter p (filter q l) = filter (fun x => q x && p x) l.
Proof.
  induction l as [|a l IH]; cbn; auto. destruct (q a); cbn; [destruct (p a)|]; now rewrite IH.
Qed.
Lemma mem_app : forall x a b, mem x (a ++ b) = mem x a || mem x b.
Proof.
  intros. destruct (mem x a) eqn:A; [|destruct (mem x b) eqn:B]; cbn.
  - apply mem_In in A. apply mem_In, in_or_app. auto.
  - apply mem_In in B. apply mem_In, in_or_app. auto.
  - apply mem_not in A. apply mem_not in B. apply mem_not. intros H.
    apply in_app_or in H. tauto.
Qed.
Lemma declare_app : forall a b c,
  declare_names (a ++ b) c = declare_names b (declare_names a c).
Proof.
  intros a b [f k bl l g]. unfold declare_names. cbn [c_fun c_class c_blocked c_locals c_globals].
  assert (E : filter (fun x => negb (mem x (a ++ b))) bl =
    filter (fun x => negb (mem x b)) (filter (fun x => negb (mem x a)) bl)).
  { rewrite filter_filter. apply filter_ext. intros x. rewrite mem_app.
    destruct (mem x a), (mem x b); reflexivity. }
  rewrite E. destruct l; cbn; now rewrite app_assoc.
Qed.

(** ** Primitive operations *)
Definition here (c : ctx) (x : string) : list string :=
  match c_locals c with nil => [x] | _ :: _ => nil end.

(** In a local scope no name is blocked, except inside an initializer. *)
Definition calm (c : ctx) : Prop := c_locals c <> nil -> c_blocked c = nil.

Lemma limit_cases : forall n x l s,
  ensure_scope_index_limit n x l s = ROk tt s \/
  (too_many n /\ ensure_scope_index_limit n x l s =
     RErr (cause_at l x "Too many local variables in function.") s).
Proof.
  intros. unfold ensure_scope_index_limit, too_many, var_loc_max_distance, scope_limit.
  destruct (65535 <? N.of_nat n)%N eqn:E; [right | left]; auto.
  split; auto. now apply N.ltb_lt.
Qed.

Lemma add_one_In : forall x G, In x G -> add_all G [x] = G.
Proof. intros. cbn. apply mem_In in H. now rewrite H. Qed.
Lemma add_one_new : forall x G, ~ In x G -> add_all G [x] = G ++ [x].
Proof. intros. cbn. apply mem_not in H. now rewrite H. Qed.
Lemma NoDup_snoc : forall (x : string) l, NoDup l -> ~ In x l -> NoDup (l ++ [x]).
Proof.
  induction l as [|y l IH]; cbn; intros N I.
  - constructor; [intros [] | constructor].
  - inversion N; subst. constructor.
    + intros H. apply in_app_or in H. destruct H as [H|[H|[]]]; auto.
    + apply IH; auto.
Qed.
Lemma repeated_snoc : forall x l r, In x l -> repeated x (l ++ x :: r).
Proof.
  intros x l r H. apply in_split in H. destruct H as (a & b & ->).
  exists a, b, r. repeat (rewrite <- ?app_assoc; cbn). reflexivity.
Qed.

Ltac both := match goal with
  | |- context[String.eqb ?a ?b] => destruct (String.eqb_spec a b)
  end.

Lemma mem_cons : forall x y l, mem x (y :: l) = String.eqb x y || mem x l.
Proof.
  intros. destruct (String.eqb_spec x y) as [E|N]; cbn.
  - subst. apply mem_In. now left.
  - destruct (mem x l) eqn:M.
    + apply mem_In in M. apply mem_In. now right.
    + apply mem_not in M. apply mem_not. intros [E|I]; auto.
Qed.
Lemma mem_nil : forall x, mem x nil = false.
Proof. intros. apply mem_not. auto. Qed.
Lemma mem_filter : forall x (p : string -> bool) l, mem x (filter p l) = mem x l && p x.
Proof.
  intros. destruct (mem x (filter p l)) eqn:E.
  - apply mem_In, filter_In in E. destruct E as [I P]. apply mem_In in I. now rewrite I, P.
  - apply mem_not in E. destruct (mem x l) eqn:M; auto. destruct (p x) eqn:P; auto.
    exfalso. apply E, filter_In. split; auto. now apply mem_In.
Qed.
Lemma incl_filter : forall A (p : A -> bool) l, incl (filter p l) l.
Proof. intros A p l x H. apply filter_In in H. tauto. Qed.

(** src/resolver.rs:578-607 *)
Lemma good_define : forall ft bs c x l, calm c ->
  good ft bs c (declare_names [x] c) (here c x) [x] (fun _ => False) False
       (fun _ _ => True) (define x l).
Proof.
  intros ft bs c x l HC G s [Hs F1 F2 K Hd].
  assert (Hlen := stack_length _ _ _ _ _ Hs).
  unfold define, here, calm in *. destruct (c_locals c) as [|sc ls] eqn:EL.
  - (* global *)
    apply stack_nil in Hs. destruct Hs as (b0 & E0 & ES & ND & I1 & I2).
    injection E0 as <- ->. rewrite ES. unfold rbind.
    destruct (limit_cases (length (layout (global_state (c_blocked c) (c_globals c)) 0 G)) x l s)
      as [E|[T E]]; rewrite E; cbn [length is_in_global_scope set_scopes scopes].
    2:{ right. right. split; [|eauto]. rewrite layout_length in T.
        eapply too_many_mono; [|eauto]. apply prefix_length, add_all_prefix. }
    cbn [Nat.eqb negb]. rewrite andb_false_r. split; [|auto].
    unfold declare_names. rewrite EL. constructor; cbn; auto; [|rewrite ES in Hd; auto].
    change (if mem x G then G else G ++ [x]) with (add_all G [x]).
    destruct (in_dec String.string_dec x G) as [I|N].
    + rewrite add_one_In by auto. split; [|split; [auto|split]].
      * rewrite upsert_old with (d := DefinedVar); auto.
        -- apply layout_ext. intros y _. unfold global_state.
           rewrite mem_filter, mem_cons, mem_nil, mem_app, mem_cons, mem_nil, orb_false_r.
           destruct (String.eqb_spec y x) as [E1|N1]; cbn.
           ++ now rewrite andb_false_r, orb_true_r.
           ++ now rewrite andb_true_r, orb_false_r.
        -- intros i. cbn. destruct (global_state _ _ _); reflexivity.
      * intros y Hy. apply incl_filter in Hy. auto.
      * intros y Hy. apply in_app_or in Hy. destruct Hy as [Hy|[<-|[]]]; auto.
    + rewrite add_one_new by auto. split; [|split; [now apply NoDup_snoc|split]].
      * rewrite upsert_new by auto. rewrite layout_app, layout_length. cbn. f_equal.
        -- apply layout_ext. intros y Hy. unfold global_state.
           rewrite mem_filter, mem_cons, mem_nil, mem_app, mem_cons, mem_nil, orb_false_r.
           destruct (String.eqb_spec y x) as [E1|N1]; [subst; contradiction|cbn].
           now rewrite andb_true_r, orb_false_r.
        -- unfold global_state.
           rewrite mem_filter, mem_cons, mem_nil, mem_app, mem_cons, mem_nil, String.eqb_refl.
           cbn. now rewrite andb_false_r, orb_true_r.
      * intros y Hy. apply incl_filter in Hy. apply in_or_app. auto.
      * intros y Hy. apply in_app_or in Hy. apply in_or_app.
        destruct Hy as [Hy|[<-|[]]]; [left; auto | right; now left].
  - (* local *)
    apply stack_cons in Hs. destruct Hs as (b0 & bs0 & scs & E0 & ES & ND & I1 & Hs).
    injection E0 as <- <-. rewrite ES.
    assert (Hl1 := stack_length _ _ _ _ _ Hs).
    rewrite (HC ltac:(discriminate)) in *. unfold rbind.
    destruct (limit_cases (length (layout (local_state nil) 0 sc)) x l s) as [E|[T E]]; rewrite E.
    2:{ right. left. exists sc, ls. split; auto. exists x, l. right. split; auto.
        rewrite layout_length in T. eapply too_many_mono; [|eauto]. rewrite app_length. lia. }
    assert (NG : is_in_global_scope (set_scopes (scope_upsert (layout (local_state nil) 0 sc) x
             (fun v => match v_state v with
                       | DefinedVar => v
                       | _ => mkVar (v_slot v) DefinedVar
                       end) (mkVar (length (layout (local_state nil) 0 sc)) DefinedVar) :: scs) s) = false).
    { unfold is_in_global_scope. cbn. rewrite Hl1. reflexivity. }
    destruct (get_layout (local_state nil) x sc 0) as [(i & FA & EG)|(NI & EG)]; rewrite EG.
    + cbn [v_state local_state]. unfold local_state at 1. rewrite mem_nil.
      cbn [andb]. unfold is_in_global_scope. cbn [set_scopes scopes length].
      rewrite Hl1. cbn. right. left. exists sc, ls. split; auto. exists x, l. left.
      split; auto. apply repeated_snoc. eauto using first_at_In.
    + cbn [andb]. split; auto. unfold declare_names. rewrite EL.
      rewrite (HC ltac:(discriminate)). constructor; cbn; auto; [|cbn in Hd; rewrite ES in Hd; auto].
      split; [|auto]. split; [|split; [now apply NoDup_snoc | intros y []]].
      rewrite upsert_new, layout_app, layout_length by auto. reflexivity.
Qed.

(** src/resolver.rs:528-576 *)
Lemma good_declare : forall ft bs c x l, calm c ->
  good ft bs c (initialising x c) (here c x) [x] (fun _ => False) False
       (fun GG i => exists k, i = SlotIndex (N.of_nat k mod 256) /\
          match c_locals c with
          | nil => first_at GG k x
          | sc :: _ => first_at (sc ++ [x]) k x
          end) (declare x l).
Proof.
  intros ft bs c x l HC G s [Hs F1 F2 K Hd].
  assert (Hlen := stack_length _ _ _ _ _ Hs).
  unfold declare, here, calm in *. destruct (c_locals c) as [|sc ls] eqn:EL.
  - (* global *)
    apply stack_nil in Hs. destruct Hs as (b0 & E0 & ES & ND & I1 & I2).
    injection E0 as <- ->. rewrite ES. unfold rbind.
    destruct (limit_cases (length (layout (global_state (c_blocked c) (c_globals c)) 0 G)) x l s)
      as [E|[T E]]; rewrite E; cbn [length is_in_global_scope set_scopes scopes].
    2:{ right. right. split; [|eauto]. rewrite layout_length in T.
        eapply too_many_mono; [|eauto]. apply prefix_length, add_all_prefix. }
    unfold initialising, known. rewrite EL.
    destruct (get_layout (global_state (c_blocked c) (c_globals c)) x G 0)
      as [(i & FA & EG)|(NI & EG)]; rewrite EG; cbn [v_slot v_state Nat.eqb negb];
      rewrite andb_false_r.
    + assert (I := first_at_In _ _ _ FA).
      split; [|intros GG (r & ->); exists i; split; [reflexivity|]; rewrite add_one_In by auto;
               now apply first_at_app].
      constructor; cbn; auto; [|rewrite ES in Hd; auto].
      change (if mem x G then G else G ++ [x]) with (add_all G [x]).
      rewrite add_one_In by auto. split; [|split; [auto|split; auto]].
      * rewrite upsert_old with
          (d := match global_state (c_blocked c) (c_globals c) x with
                | UndefinedVar => DeclaredVar | d => d end); auto.
        -- apply layout_ext. intros y _. unfold global_state.
           destruct (mem x (c_globals c)) eqn:MG.
           ++ destruct (String.eqb_spec y x) as [->|N1]; auto.
              rewrite MG. destruct (mem x (c_blocked c)); auto.
           ++ rewrite mem_cons. destruct (String.eqb_spec y x) as [->|N1]; cbn; auto.
              destruct (mem x (c_blocked c)); rewrite ?MG; auto.
        -- intros j. cbn. destruct (global_state _ _ _); reflexivity.
      * destruct (mem x (c_globals c)); auto. intros y [<-|Hy]; auto.
    + split; [|intros GG (r & ->); exists (length G); split;
               [rewrite layout_length; reflexivity|]; rewrite add_one_new by auto;
               now apply first_at_app, first_at_end].
      constructor; cbn; auto; [|rewrite ES in Hd; auto].
      change (if mem x G then G else G ++ [x]) with (add_all G [x]).
      assert (MG : mem x (c_globals c) = false) by (apply mem_not; intros H; auto).
      assert (MB : mem x (c_blocked c) = false) by (apply mem_not; intros H; auto).
      rewrite add_one_new by auto. rewrite MG.
      split; [|split; [now apply NoDup_snoc|split]].
      * rewrite upsert_new by auto. rewrite layout_app, layout_length. cbn. f_equal.
        -- apply layout_ext. intros y Hy. unfold global_state. rewrite mem_cons.
           destruct (String.eqb_spec y x) as [E1|N1]; [subst; contradiction|reflexivity].
        -- unfold global_state. rewrite mem_cons, String.eqb_refl. reflexivity.
      * intros y [<-|Hy]; apply in_or_app; [right; now left | left; auto].
      * intros y Hy. apply in_or_app. auto.
  - (* local *)
    apply stack_cons in Hs. destruct Hs as (b0 & bs0 & scs & E0 & ES & ND & I1 & Hs).
    injection E0 as <- <-. rewrite ES.
    assert (Hl1 := stack_length _ _ _ _ _ Hs).
    rewrite (HC ltac:(discriminate)) in *. unfold rbind.
    destruct (limit_cases (length (layout (local_state nil) 0 sc)) x l s) as [E|[T E]]; rewrite E.
    2:{ right. left. exists sc, ls. split; auto. exists x, l. right. split; auto.
        rewrite layout_length in T. eapply too_many_mono; [|eauto]. rewrite app_length. lia. }
    destruct (get_layout (local_state nil) x sc 0) as [(i & FA & EG)|(NI & EG)]; rewrite EG.
    + cbn [v_state local_state]. unfold local_state at 1. rewrite mem_nil.
      cbn [andb]. unfold is_in_global_scope. cbn [set_scopes scopes length].
      rewrite Hl1. cbn. right. left. exists sc, ls. split; auto. exists x, l. left.
      split; auto. apply repeated_snoc. eauto using first_at_In.
    + cbn [andb]. split.
      2:{ intros GG _. exists (length sc). rewrite layout_length. split; auto.
          now apply first_at_end. }
      unfold initialising, known. rewrite EL.
      rewrite (HC ltac:(discriminate)). constructor; cbn; auto; [|cbn in Hd; rewrite ES in Hd; auto].
      assert (M : mem x sc = false) by now apply mem_not.
      rewrite M.
      split; [|auto]. split; [|split; [now apply NoDup_snoc | intros y [<-|[]]; apply in_or_app; right; now left]].
      rewrite upsert_new, layout_app, layout_length by auto. cbn. f_equal.
      * apply layout_ext. intros y Hy. unfold local_state.
        rewrite mem_cons, mem_nil. destruct (String.eqb_spec y x); [subst; contradiction|auto].
      * unfold local_state. now rewrite mem_cons, String.eqb_refl.
Qed.

(** The end of a variable declaration. *)
Lemma good_define_declared : forall ft bs c x l, calm c ->
  good ft bs (initialising x c) (declare_names [x] c) nil nil (fun _ => False) False
       (fun _ _ => True) (define x l).
Proof.
  intros ft bs c x l HC G s [Hs F1 F2 K Hd].
  assert (Hlen := stack_length _ _ _ _ _ Hs).
  unfold define, initialising, declare_names, calm in *.
  destruct (c_locals c) as [|sc ls] eqn:EL; cbn [c_locals c_blocked c_globals c_fun c_class] in *.
  - unfold known in Hs. rewrite EL in Hs.
    apply stack_nil in Hs. destruct Hs as (b0 & E0 & ES & ND & I1 & I2).
    injection E0 as <- ->. rewrite ES. unfold rbind.
    match goal with |- context[ensure_scope_index_limit (length ?g) _ _] => remember g as g0 eqn:Eg end.
    destruct (limit_cases (length g0) x l s)
      as [E|[T E]]; rewrite E; cbn [length is_in_global_scope set_scopes scopes].
    2:{ right. right. split; [|eauto]. subst g0. rewrite layout_length in T. auto. }
    cbn [Nat.eqb negb]. rewrite andb_false_r. split; [|auto].
    assert (I : In x G).
    { destruct (mem x (c_globals c)) eqn:MG; [apply mem_In in MG; auto | apply I1; now left]. }
    constructor; cbn; auto; [|rewrite ES in Hd; auto].
    split; [|split; [auto|split]].
    + rewrite Eg. rewrite upsert_old with (d := DefinedVar); auto.
      * apply layout_ext. intros y _. unfold global_state.
        rewrite mem_filter, mem_cons, mem_nil, mem_app, mem_cons, mem_nil, orb_false_r.
        destruct (String.eqb_spec y x) as [E1|N1]; cbn.
        -- now rewrite andb_false_r, orb_true_r.
        -- rewrite andb_true_r, orb_false_r.
           destruct (mem x (c_globals c)); auto. rewrite mem_cons.
           destruct (String.eqb_spec y x); [contradiction | reflexivity].
      * intros i. cbn. destruct (global_state _ _ _); reflexivity.
    + intros y Hy. apply incl_filter in Hy. apply I1. destruct (mem x (c_globals c)); [auto | now right].
    + intros y Hy. apply in_app_or in Hy. destruct Hy as [Hy|[<-|[]]]; auto.
  - apply stack_cons in Hs. destruct Hs as (b0 & bs0 & scs & E0 & ES & ND & I1 & Hs).
    injection E0 as <- <-. rewrite ES.
    unfold known in *. rewrite EL in *. rewrite (HC ltac:(discriminate)) in *.
    assert (NI : ~ In x sc).
    { intros H. apply in_split in H. destruct H as (p & q & ->).
      rewrite <- app_assoc in ND. cbn in ND. apply NoDup_remove_2 in ND.
      apply ND. apply in_or_app. right. apply in_or_app. right. now left. }
    assert (M : mem x sc = false) by now apply mem_not.
    rewrite M in *. unfold rbind.
    match goal with |- context[ensure_scope_index_limit (length ?g) _ _] => remember g as sc0 eqn:Esc end.
    destruct (limit_cases (length sc0) x l s) as [E|[T E]]; rewrite E.
    2:{ right. left. exists (sc ++ [x]), ls. split; [reflexivity|]. exists x, l. right. split; auto.
        subst sc0. rewrite layout_length in T. rewrite app_nil_r. auto. }
    assert (LS : local_state [x] x = DeclaredVar).
    { unfold local_state. now rewrite mem_cons, String.eqb_refl. }
    assert (Ix : In x (sc ++ [x])) by (apply in_or_app; right; now left).
    destruct (get_layout (local_state [x]) x (sc ++ [x]) 0) as [(i & FA & EG)|(N1 & EG)];
      [|contradiction].
    subst sc0. rewrite EG. cbn [v_state]. rewrite LS. cbn [andb].
    split; auto. constructor; cbn; auto; [|rewrite ES in Hd; auto].
    split; [|auto]. split; [|split; [auto | intros y []]].
    rewrite upsert_old with (d := DefinedVar); auto.
    + apply layout_ext. intros y _. unfold local_state. rewrite mem_cons, !mem_nil.
      destruct (String.eqb_spec y x); reflexivity.
    + intros j. cbn. now rewrite LS.
Qed.

Lemma lookup_stack : forall x G locals bs globals scs d,
  stack_ok G locals bs globals scs ->
  (exists inner sc outer k v, locals = inner ++ sc :: outer /\
     (forall sc', In sc' inner -> ~ In x sc') /\ first_at sc k x /\ v_slot v = k /\
     lookup_scopes scs x d = Some (d + length inner, v)) \/
  ((forall sc, In sc locals -> ~ In x sc) /\
   ((exists k v, first_at G k x /\ v_slot v = k /\
       lookup_scopes scs x d = Some (d + length locals, v)) \/
    (~ In x G /\ lookup_scopes scs x d = None))).
Proof.
  induction locals as [|sc ls IH]; intros bs globals scs d H.
  - apply stack_nil in H. destruct H as (b & -> & -> & ND & _ & _). right.
    split; [intros sc []|]. cbn [lookup_scopes].
    destruct (get_layout (global_state b globals) x G 0) as [(i & FA & E)|(N & E)]; rewrite E.
    + left. exists i, (mkVar i (global_state b globals x)).
      split; [auto|split; [auto|]]. cbn. now rewrite Nat.add_0_r.
    + right. auto.
  - apply stack_cons in H. destruct H as (b & bs' & scs' & -> & -> & ND & _ & Hs). cbn [lookup_scopes].
    destruct (get_layout (local_state b) x sc 0) as [(i & FA & E)|(N & E)]; rewrite E.
    + left. exists nil, sc, ls, i, (mkVar i (local_state b x)). cbn.
      rewrite Nat.add_0_r. firstorder.
    + specialize (IH bs' globals scs' (S d) Hs). destruct IH as [H|[H1 H2]].
      * destruct H as (inner & sc1 & outer & k & v & E1 & H1 & FA & E2 & E3).
        left. exists (sc :: inner), sc1, outer, k, v. subst. split; [auto|].
        split; [intros sc' [<-|I]; auto|]. split; [auto|split; [auto|]].
        rewrite E3. cbn. do 2 f_equal. lia.
      * right. split; [intros sc' [<-|I]; auto|].
        destruct H2 as [(k & v & FA & E2 & E3)|H2]; [left|right; auto].
        exists k, v. split; [auto|split; [auto|]]. rewrite E3. cbn. do 2 f_equal. lia.
Qed.

Lemma in_locals_true : forall x c, in_locals x c = true <-> exists sc, In sc (c_locals c) /\ In x sc.
Proof.
  intros. unfold in_locals. rewrite existsb_exists. split; intros (sc & I & H); exists sc; split; auto;
    now apply mem_In.
Qed.

Lemma rev_last_stack : forall G locals bs globals scs,
  stack_ok G locals bs globals scs ->
  exists b inner, rev scs = layout (global_state b globals) 0 G :: inner.
Proof.
  induction locals as [|sc ls IH]; intros bs globals scs H.
  - apply stack_nil in H. destruct H as (b & -> & -> & _). cbn. eauto.
  - apply stack_cons in H. destruct H as (b & bs' & scs' & -> & -> & _ & _ & H). destruct (IH _ _ _ H) as (b' & inner & E).
    cbn. rewrite E. cbn. eauto.
Qed.

Lemma reserve_stack : forall x G locals bs globals scs, ~ In x G ->
  stack_ok G locals bs globals scs ->
  stack_ok (G ++ [x]) locals bs globals
    (update_last (fun g => g ++ [(x, mkVar (length G) UndefinedVar)]) scs).
Proof.
  induction locals as [|sc ls IH]; intros bs globals scs N H.
  - apply stack_nil in H. destruct H as (b & -> & -> & ND & I1 & I2).
    cbn. split; [|split; [now apply NoDup_snoc|split; intros y Hy; apply in_or_app; auto]].
    rewrite layout_app. cbn. f_equal. unfold global_state.
    assert (mem x b = false) as -> by (apply mem_not; auto).
    assert (mem x globals = false) as -> by (apply mem_not; auto). reflexivity.
  - apply stack_cons in H. destruct H as (b & bs' & scs' & -> & -> & H1 & H2 & H).
    assert (L := stack_length _ _ _ _ _ H). specialize (IH _ _ _ N H).
    destruct scs' as [|s2 scs]; [discriminate|].
    cbn [update_last stack_ok] in *. auto.
Qed.
Lemma update_last_length : forall A (f : A -> A) l, length (update_last f l) = length l.
Proof. induction l as [|a [|b r] IH]; cbn in *; auto. Qed.

(** src/resolver.rs:459-526 *)
Lemma good_lookup : forall ft bs c x l,
  good ft bs c c (if in_locals x c then nil else [x]) nil (fun _ => False) False
       (fun GG v => resolves_to GG (c_locals c) x v) (resolve_local_variable x l).
Proof.
  intros ft bs c x l G s [Hs F1 F2 K Hd].
  assert (Hlen := stack_length _ _ _ _ _ Hs).
  assert (Hu16 : forall n, n <= length (c_locals c) -> as_u16 n = N.of_nat n).
  { intros n Hn. unfold as_u16. rewrite N.mod_small; auto. lia. }
  unfold resolve_local_variable.
  destruct (lookup_stack x _ _ _ _ _ 0 Hs) as
    [(inner & sc & outer & k & v & E1 & H1 & FA & E2 & E3)|
     (H1 & [(k & v & FA & E2 & E3)|(N & E3)])]; rewrite E3.
  - assert (IL : in_locals x c = true).
    { apply in_locals_true. exists sc. rewrite E1. split; [apply in_elt | eauto using first_at_In]. }
    rewrite IL. cbn [add_all]. split; [constructor; auto|].
    intros GG _. left. exists inner, sc, outer, k. subst k. repeat split; auto; try apply FA.
    rewrite Hu16; [reflexivity|]. rewrite E1, app_length. cbn. lia.
  - assert (IL : in_locals x c = false).
    { destruct (in_locals x c) eqn:E; auto. apply in_locals_true in E.
      destruct E as (sc & I1 & I2). exfalso. eapply H1; eauto. }
    rewrite IL. rewrite add_one_In by eauto using first_at_In.
    split; [constructor; auto|].
    intros GG (r & ->). right. split; auto. exists k. subst k. split; [now apply first_at_app|].
    rewrite Hu16; [reflexivity | cbn; lia].
  - assert (IL : in_locals x c = false).
    { destruct (in_locals x c) eqn:E; auto. apply in_locals_true in E.
      destruct E as (sc & I1 & I2). exfalso. eapply H1; eauto. }
    rewrite IL. unfold rbind, forward_reserve_global_var.
    destruct (rev_last_stack _ _ _ _ _ Hs) as (b & inner & ER). rewrite ER.
    rewrite layout_length. unfold rbind.
    destruct (limit_cases (length G) x l s) as [E|[T E]]; rewrite E.
    + destruct (get_layout (global_state b (c_globals c)) x G 0) as [(i & FA & _)|(_ & EG)];
        [exfalso; apply N; eauto using first_at_In|]. rewrite EG.
      rewrite Hlen. cbn [Nat.eqb Nat.sub]. rewrite add_one_new by auto. split.
      * constructor; cbn; auto; [now apply reserve_stack | now rewrite update_last_length].
      * intros GG (r & ->). right. split; auto. exists (length G).
        split; [now apply first_at_app, first_at_end|].
        rewrite Nat.sub_0_r, Hu16 by lia. reflexivity.
    + right. right. split; [|eauto]. rewrite add_one_new by auto.
      eapply too_many_mono; [|eauto]. rewrite app_length. lia.
Qed.
