(** The resolver makes the checks of SpecCheck.v, in their order, up to the
    first that fails. *)
From Verif Require Import Base F64 Token Ast AstInd Resolver SpecResolve SpecCheck
  ResolveStep ResolveSound.
From Coq Require Import Lia.

(** ** Worlds *)
Definition world_in (G : list string) (bs : list (list string)) (c : ctx) : world :=
  mkWorld G (c_globals c) (last (c_blocked c :: bs) nil).
(** What the global scope is in a world. *)
Definition holds (w : world) (s : rstate) : Prop :=
  last (scopes s) nil = layout (global_state (w_blocked w) (w_known w)) 0 (w_table w) /\
  NoDup (w_table w) /\ incl (w_blocked w) (w_table w) /\ incl (w_known w) (w_table w).
Definition undone (s s' : rstate) : Prop :=
  length (scopes s') = length (scopes s) /\ function_type s' = function_type s /\
  class_type s' = class_type s.

Definition exactly {A} (ft : rfun_type) (bs : list (list string)) (c c' : ctx)
           (l : list (ctx * check)) (m : R A) : Prop :=
  forall G s, agrees ft G bs c s ->
  match run_checks (world_in G bs c) l with
  | (None, w) => exists a s', m s = ROk a s' /\ agrees ft (w_table w) bs c' s' /\
                              w = world_in (w_table w) bs c'
  | (Some (Error e), w) => exists s', m s = RErr e s' /\ holds w s' /\ undone s s'
  | (Some TooDeep, _) => exists why, m s = RPanic why
  end.

Lemma run_checks_app : forall a b w,
  run_checks w (a ++ b) =
  match run_checks w a with (None, w1) => run_checks w1 b | (Some f, w1) => (Some f, w1) end.
Proof.
  induction a as [|x a IH]; cbn; intros b w; auto. destruct (fault (w_table w) x); auto.
Qed.

Lemma stack_holds : forall G locals bs globals scs,
  stack_ok G locals bs globals scs ->
  last scs nil = layout (global_state (last bs nil) globals) 0 G /\
  NoDup G /\ incl (last bs nil) G /\ incl globals G.
Proof.
  induction locals as [|sc ls IH]; intros bs globals scs H.
  - apply stack_nil in H. destruct H as (b & -> & -> & H). auto.
  - apply stack_cons in H. destruct H as (b & bs' & scs' & -> & -> & _ & _ & H).
    assert (N : scs' <> nil).
    { intros ->. apply stack_length in H. discriminate. }
    assert (N' : bs' <> nil).
    { intros ->. destruct ls, scs'; cbn in H; contradiction. }
    apply IH in H. destruct scs'; [contradiction|]. destruct bs'; [contradiction|]. exact H.
Qed.
Lemma agrees_holds : forall ft G bs c s, agrees ft G bs c s -> holds (world_in G bs c) s.
Proof. intros ft G bs c s [H _ _ _ _]. exact (stack_holds _ _ _ _ _ H). Qed.
Lemma undone_refl : forall s, undone s s.
Proof. intros. now repeat split. Qed.
Lemma undone_trans : forall a b c, undone a b -> undone b c -> undone a c.
Proof. intros a b c (A1 & A2 & A3) (B1 & B2 & B3). repeat split; congruence. Qed.
Lemma agrees_undone : forall ft G G' bs c c' s s',
  length (c_locals c') = length (c_locals c) -> c_class c' = c_class c ->
  agrees ft G bs c s -> agrees ft G' bs c' s' -> undone s s'.
Proof.
  intros ft G G' bs c c' s s' L K [S F _ C _] [S' F' _ C' _].
  apply stack_length in S. apply stack_length in S'.
  repeat split; try congruence.
  rewrite K, C in C'. destruct (class_type s), (class_type s'); cbn in C'; congruence.
Qed.

(** ** Combining *)
Lemma ex_ret : forall A ft bs c (a : A), exactly ft bs c c nil (rret a).
Proof. intros A ft bs c a G s Ha. cbn. exists a, s. auto. Qed.

(** Contexts along a sequence. *)
Definition alongside (c c' : ctx) : Prop :=
  length (c_locals c') = length (c_locals c) /\ c_class c' = c_class c.
Lemma along_refl : forall c, alongside c c.
Proof. now split. Qed.
Lemma along_declare : forall xs c, alongside c (declare_names xs c).
Proof. intros. unfold alongside, declare_names. destruct (c_locals c); now split. Qed.
Lemma along_init : forall x c, alongside c (initialising x c).
Proof. intros. unfold alongside, initialising. destruct (c_locals c); now split. Qed.

Lemma ex_bind : forall A B ft bs c c1 c2 l1 l2 (m : R A) (f : A -> R B),
  alongside c c1 ->
  exactly ft bs c c1 l1 m -> (forall a, exactly ft bs c1 c2 l2 (f a)) ->
  exactly ft bs c c2 (l1 ++ l2) (rbind m f).
Proof.
  intros A B ft bs c c1 c2 l1 l2 m f [Al1 Al2] H1 H2 G s Ha. specialize (H1 G s Ha).
  rewrite run_checks_app. unfold rbind.
  destruct (run_checks (world_in G bs c) l1) as [[[e|]|] w].
  - destruct H1 as (s' & E & H). rewrite E. eauto.
  - destruct H1 as (why & E). rewrite E. eauto.
  - destruct H1 as (a & s1 & E & Ha1 & Ew). rewrite E. specialize (H2 a _ _ Ha1). rewrite <- Ew in H2.
    destruct (run_checks w l2) as [[[e|]|] w2]; auto.
    destruct H2 as (s' & E2 & H & Un). exists s'. split; auto. split; auto.
    eapply undone_trans; [|exact Un]. apply (agrees_undone _ _ _ _ _ _ _ _ Al1 Al2 Ha Ha1).
Qed.
Lemma ex_map : forall A B ft bs c c1 l (m : R A) (f : A -> B),
  exactly ft bs c c1 l m -> exactly ft bs c c1 l (rlet a <- m ;; rret (f a)).
Proof.
  intros A B ft bs c c1 l m f H G s Ha. specialize (H G s Ha). unfold rbind, rret.
  destruct (run_checks (world_in G bs c) l) as [[[e|]|] w].
  - destruct H as (s' & E & H). rewrite E. eauto.
  - destruct H as (why & E). rewrite E. eauto.
  - destruct H as (a & s1 & E & Ha1 & Ew). rewrite E. eauto.
Qed.
Lemma ex_seq : forall A B ft bs c c2 l1 l2 (m : R A) (f : A -> R B),
  exactly ft bs c c l1 m -> (forall a, exactly ft bs c c2 l2 (f a)) ->
  exactly ft bs c c2 (l1 ++ l2) (rbind m f).
Proof. intros. eapply ex_bind; eauto using along_refl. Qed.

(** A single check. *)
Lemma ex_one : forall A ft bs c c' k (m : R A),
  (forall G s, agrees ft G bs c s ->
   match fault G (c, k) with
   | None => exists a s', m s = ROk a s' /\
       let w := after (world_in G bs c) (c, k) in
       agrees ft (w_table w) bs c' s' /\ w = world_in (w_table w) bs c'
   | Some (Error e) => exists s', m s = RErr e s' /\ holds (world_in G bs c) s' /\ undone s s'
   | Some TooDeep => exists why, m s = RPanic why
   end) -> exactly ft bs c c' [(c, k)] m.
Proof.
  intros A ft bs c c' k m H G s Ha. specialize (H G s Ha). cbn [run_checks].
  change (w_table (world_in G bs c)) with G.
  destruct (fault G (c, k)) as [[e|]|]; auto.
Qed.

(** ** Primitive operations *)
Lemma limit_exact : forall n x l s,
  ensure_scope_index_limit n x l s =
  if (scope_limit <? N.of_nat n)%N
  then RErr (cause_at l x "Too many local variables in function.") s else ROk tt s.
Proof.
  intros. unfold ensure_scope_index_limit, var_loc_max_distance, scope_limit.
  destruct (_ <? _)%N; reflexivity.
Qed.
Lemma holds_local : forall ft G bs c s sc ls sc' scs, agrees ft G bs c s ->
  c_locals c = sc :: ls -> scopes s = sc' :: scs -> forall new,
  holds (world_in G bs c) (set_scopes (new :: scs) s) /\ undone s (set_scopes (new :: scs) s).
Proof.
  intros ft G bs c s sc ls sc' scs Ha L E new.
  assert (H := agrees_holds _ _ _ _ _ Ha).
  assert (N : scs <> nil).
  { intros ->. assert (S := stack_length _ _ _ _ _ (ag_stack _ _ _ _ _ Ha)).
    rewrite E, L in S. discriminate. }
  split.
  - unfold holds in *. rewrite E in H. cbn [set_scopes scopes] in *.
    destruct scs as [|b scs]; [contradiction|]. exact H.
  - repeat split. cbn. now rewrite E.
Qed.

Lemma stack_front : forall ft G bs c s, agrees ft G bs c s ->
  exists sc scs, scopes s = sc :: scs /\ length sc = length (scope_names G c) /\
  match c_locals c with
  | nil => scs = nil
  | names :: _ => sc = layout (local_state (c_blocked c)) 0 names /\
                  exists b scs', scs = b :: scs'
  end.
Proof.
  intros ft G bs c s [H _ _ _ _]. unfold scope_names. destruct (c_locals c) as [|names ls].
  - apply stack_nil in H. destruct H as (b & E & -> & _). injection E as <- ->.
    eexists _, _. split; [reflexivity|]. now rewrite layout_length.
  - apply stack_cons in H. destruct H as (b & bs' & scs' & E & -> & _ & _ & H).
    injection E as <- <-. eexists _, _. split; [reflexivity|]. rewrite layout_length.
    split; auto. split; auto. apply stack_length in H. destruct scs'; [discriminate|eauto].
Qed.
Lemma local_bs : forall ft G bs c s sc ls, agrees ft G bs c s -> c_locals c = sc :: ls ->
  exists b bs', bs = b :: bs'.
Proof.
  intros ft G bs c s sc ls [H _ _ _ _] L. rewrite L in H. apply stack_cons in H.
  destruct H as (b & bs' & scs' & E & _ & _ & _ & H). injection E as <- ->.
  destruct bs' as [|b' bs'']; [|eauto].
  destruct ls, scs'; cbn in H; contradiction.
Qed.
Lemma global_bs : forall ft G bs c s, agrees ft G bs c s -> c_locals c = nil -> bs = nil.
Proof.
  intros ft G bs c s [H _ _ _ _] L. rewrite L in H. apply stack_nil in H.
  destruct H as (b & E & _). now injection E.
Qed.
Lemma get_in : forall st x sc k,
  scope_get (layout st k sc) x = None <-> mem x sc = false.
Proof.
  intros. destruct (get_layout st x sc k) as [(i & FA & E)|(N & E)]; rewrite E.
  - split; [discriminate|]. intros H. apply mem_not in H. exfalso. apply H.
    eauto using first_at_In.
  - split; auto. intros _. now apply mem_not.
Qed.

Lemma define_result : forall ft G bs c s x l, calm c -> agrees ft G bs c s ->
  match introduce G c x l with
  | None => exists s', define x l s = ROk tt s'
  | Some (Error e) =>
    exists s', define x l s = RErr e s' /\ holds (world_in G bs c) s' /\ undone s s'
  | Some TooDeep => False
  end.
Proof.
  intros ft G bs c s x l HC Ha. destruct (stack_front _ _ _ _ _ Ha) as (sc & scs & E & L & H).
  unfold define, introduce, full. rewrite E. unfold rbind. rewrite limit_exact, L.
  destruct (scope_limit <? _)%N.
  { cbn [no_room]. exists s. split; auto. split; [eapply agrees_holds; eauto | apply undone_refl]. }
  unfold calm in HC. destruct (c_locals c) as [|names ls] eqn:EL.
  - subst scs. cbn [is_in_global_scope set_scopes scopes length Nat.eqb negb].
    rewrite andb_false_r. eauto.
  - destruct H as (Esc & b & scs' & ->). rewrite (HC ltac:(discriminate)) in Esc.
    destruct (mem x names) eqn:M.
    + assert (EG : exists v, scope_get sc x = Some v /\ v_state v = DefinedVar).
      { rewrite Esc. destruct (get_layout (local_state nil) x names 0) as [(i & FA & EG)|(N & EG)].
        - rewrite EG. eexists. split; [reflexivity|]. reflexivity.
        - exfalso. apply N. now apply mem_In. }
      destruct EG as (v & EG & EV). rewrite EG, EV. cbn [andb is_in_global_scope set_scopes scopes length Nat.eqb negb].
      eexists. split; [reflexivity|]. eapply holds_local; eauto.
    + assert (EG : scope_get sc x = None) by (rewrite Esc; now apply get_in).
      rewrite EG. cbn [andb]. eauto.
Qed.
Lemma declare_result : forall ft G bs c s x l, calm c -> agrees ft G bs c s ->
  match introduce G c x l with
  | None => exists i s', declare x l s = ROk i s'
  | Some (Error e) =>
    exists s', declare x l s = RErr e s' /\ holds (world_in G bs c) s' /\ undone s s'
  | Some TooDeep => False
  end.
Proof.
  intros ft G bs c s x l HC Ha. destruct (stack_front _ _ _ _ _ Ha) as (sc & scs & E & L & H).
  unfold declare, introduce, full. rewrite E. unfold rbind. rewrite limit_exact, L.
  destruct (scope_limit <? _)%N.
  { cbn [no_room]. exists s. split; auto. split; [eapply agrees_holds; eauto | apply undone_refl]. }
  unfold calm in HC. destruct (c_locals c) as [|names ls] eqn:EL.
  - subst scs. destruct (match scope_get sc x with Some v => _ | None => _ end) as [i d].
    cbn [is_in_global_scope set_scopes scopes length Nat.eqb negb].
    rewrite andb_false_r. eauto.
  - destruct H as (Esc & b & scs' & ->). rewrite (HC ltac:(discriminate)) in Esc.
    destruct (mem x names) eqn:M.
    + assert (EG : exists v, scope_get sc x = Some v /\ v_state v = DefinedVar).
      { rewrite Esc. destruct (get_layout (local_state nil) x names 0) as [(i & FA & EG)|(N & EG)].
        - rewrite EG. eexists. split; [reflexivity|]. reflexivity.
        - exfalso. apply N. now apply mem_In. }
      destruct EG as (v & EG & EV). rewrite EG, EV. cbn [andb is_in_global_scope set_scopes scopes length Nat.eqb negb].
      eexists. split; [reflexivity|]. eapply holds_local; eauto.
    + assert (EG : scope_get sc x = None) by (rewrite Esc; now apply get_in).
      rewrite EG. cbn [andb]. eauto.
Qed.
Lemma complete_result : forall ft G bs c s x l, calm c -> agrees ft G bs (initialising x c) s ->
  if full (scope_names G (initialising x c))
  then define x l s = RErr (cause_at l x "Too many local variables in function.") s
  else exists s', define x l s = ROk tt s'.
Proof.
  intros ft G bs c s x l HC Ha. destruct (stack_front _ _ _ _ _ Ha) as (sc & scs & E & L & H).
  unfold define, full. rewrite E. unfold rbind. rewrite limit_exact, L.
  destruct (scope_limit <? _)%N; auto.
  unfold calm, initialising, known in *. destruct (c_locals c) as [|names ls] eqn:EL; cbn [c_locals] in H.
  - subst scs. cbn [is_in_global_scope set_scopes scopes length Nat.eqb negb].
    rewrite andb_false_r. eauto.
  - destruct H as (Esc & b & scs' & ->). cbn [c_blocked] in Esc.
    rewrite (HC ltac:(discriminate)) in Esc.
    assert (M : mem x names = false).
    { destruct Ha as [Hs _ _ _ _]. cbn [c_locals] in Hs. apply stack_cons in Hs.
      destruct Hs as (b0 & bs0 & scs0 & _ & _ & ND & _). apply mem_not. intros I.
      apply in_split in I. destruct I as (p & q & ->).
      rewrite <- app_assoc in ND. cbn in ND. apply NoDup_remove_2 in ND.
      apply ND. apply in_or_app. right. apply in_or_app. right. now left. }
    rewrite M in Esc.
    assert (EG : exists v, scope_get sc x = Some v /\ v_state v = DeclaredVar).
    { rewrite Esc. destruct (get_layout (local_state [x]) x (names ++ [x]) 0) as [(i & FA & EG)|(N & EG)].
      - rewrite EG. eexists. split; [reflexivity|]. cbn. unfold local_state.
        now rewrite mem_cons, String.eqb_refl.
      - exfalso. apply N. apply in_or_app. right. now left. }
    destruct EG as (v & EG & EV). rewrite EG, EV. cbn [andb]. eauto.
Qed.

Lemma good_agrees : forall A ft bs c c' us xs B D (Q : list string -> A -> Prop) m G s a s',
  good ft bs c c' us xs B D Q m -> agrees ft G bs c s -> m s = ROk a s' ->
  agrees ft (add_all G us) bs c' s'.
Proof.
  intros A ft bs c c' us xs B D Q m G s a s' H Ha E. specialize (H G s Ha). rewrite E in H. tauto.
Qed.

Lemma ex_define : forall ft bs c x l, calm c ->
  exactly ft bs c (declare_names [x] c) [(c, Defines x l)] (define x l).
Proof.
  intros ft bs c x l HC. apply ex_one. intros G s Ha.
  assert (H := define_result _ _ _ _ _ x l HC Ha). cbn [fault].
  destruct (introduce G c x l) as [[e|]|]; auto; [contradiction|].
  destruct H as (s' & E). exists tt, s'. split; auto.
  assert (Ha' := good_agrees _ _ _ _ _ _ _ _ _ _ _ _ _ _ _ (good_define ft bs c x l HC) Ha E).
  cbn [after]. unfold global, here in *. destruct (c_locals c) as [|sc ls] eqn:EL.
  - split; [exact Ha'|]. rewrite (global_bs _ _ _ _ _ Ha EL).
    unfold world_in, declare_names. rewrite EL. reflexivity.
  - split; [exact Ha'|]. destruct (local_bs _ _ _ _ _ _ _ Ha EL) as (b & bs' & ->).
    unfold world_in, declare_names. rewrite EL. reflexivity.
Qed.
Lemma ex_declare : forall ft bs c x l, calm c ->
  exactly ft bs c (initialising x c) [(c, Declares x l)] (declare x l).
Proof.
  intros ft bs c x l HC. apply ex_one. intros G s Ha.
  assert (H := declare_result _ _ _ _ _ x l HC Ha). cbn [fault].
  destruct (introduce G c x l) as [[e|]|]; auto; [contradiction|].
  destruct H as (i & s' & E). exists i, s'. split; auto.
  assert (Ha' := good_agrees _ _ _ _ _ _ _ _ _ _ _ _ _ _ _ (good_declare ft bs c x l HC) Ha E).
  cbn [after]. unfold global, here in *. destruct (c_locals c) as [|sc ls] eqn:EL.
  - split; [exact Ha'|]. rewrite (global_bs _ _ _ _ _ Ha EL).
    unfold world_in, initialising, known. rewrite EL. reflexivity.
  - split; [exact Ha'|]. destruct (local_bs _ _ _ _ _ _ _ Ha EL) as (b & bs' & ->).
    unfold world_in, initialising, known. rewrite EL. reflexivity.
Qed.
Lemma ex_complete : forall ft bs c x l, calm c ->
  exactly ft bs (initialising x c) (declare_names [x] c) [(initialising x c, Completes x l)] (define x l).
Proof.
  intros ft bs c x l HC. apply ex_one. intros G s Ha.
  assert (H := complete_result _ _ _ _ _ x l HC Ha). cbn [fault].
  destruct (full _).
  { cbn [no_room]. exists s. split; auto. split; [eapply agrees_holds; eauto | apply undone_refl]. }
  destruct H as (s' & E). exists tt, s'. split; auto.
  assert (Ha' := good_agrees _ _ _ _ _ _ _ _ _ _ _ _ _ _ _ (good_define_declared ft bs c x l HC) Ha E).
  cbn [after]. destruct (c_locals c) as [|sc ls] eqn:EL.
  - assert (B : bs = nil).
    { eapply (global_bs _ _ _ (initialising x c)); [exact Ha|].
      unfold initialising. now rewrite EL. }
    subst bs. unfold global, initialising. rewrite EL. cbn [c_locals]. split; [exact Ha'|].
    unfold world_in, declare_names, known. rewrite EL.
    unfold make_known. cbn [w_table w_known w_blocked c_globals c_blocked last]. f_equal.
    destruct (mem x (c_globals c)); auto. cbn [filter].
    now rewrite mem_cons, String.eqb_refl.
  - assert (B : exists b bs', bs = b :: bs').
    { eapply (local_bs _ _ _ (initialising x c)); [exact Ha|].
      unfold initialising. rewrite EL. reflexivity. }
    destruct B as (b & bs' & ->). unfold global, initialising. rewrite EL. cbn [c_locals].
    split; [exact Ha'|]. unfold world_in, declare_names, known. rewrite EL. reflexivity.
Qed.

(** Looking a name up. *)
Lemma lookup_result : forall ft G bs c s x l, agrees ft G bs c s ->
  match find_name G c x l with
  | None => exists v s', resolve_local_variable x l s = ROk v s'
  | Some (Error e) => resolve_local_variable x l s = RErr e s
  | Some TooDeep => False
  end.
Proof.
  intros ft G bs c s x l [Hs F1 F2 K Hd].
  assert (Hlen := stack_length _ _ _ _ _ Hs). unfold resolve_local_variable, find_name.
  destruct (lookup_stack x _ _ _ _ _ 0 Hs) as
    [(inner & sc & outer & k & v & E1 & H1 & FA & E2 & E3)|
     (H1 & [(k & v & FA & E2 & E3)|(N & E3)])]; rewrite E3.
  - assert (IL : in_locals x c = true).
    { apply in_locals_true. exists sc. rewrite E1. split; [apply in_elt | eauto using first_at_In]. }
    rewrite IL. cbn. eauto.
  - assert (IG : mem x G = true) by (apply mem_In; eauto using first_at_In).
    rewrite IG, orb_true_r. eauto.
  - assert (IL : in_locals x c = false).
    { destruct (in_locals x c) eqn:E; auto. apply in_locals_true in E.
      destruct E as (sc & I1 & I2). exfalso. eapply H1; eauto. }
    assert (IG : mem x G = false) by now apply mem_not.
    rewrite IL, IG. cbn [orb]. unfold rbind, forward_reserve_global_var.
    destruct (rev_last_stack _ _ _ _ _ Hs) as (b & inner & ER). rewrite ER.
    rewrite layout_length. unfold rbind. rewrite limit_exact. unfold full.
    destruct (scope_limit <? _)%N; [reflexivity|].
    assert (EG : scope_get (layout (global_state b (c_globals c)) 0 G) x = None) by now apply get_in.
    rewrite EG, Hlen. cbn [Nat.eqb]. eauto.
Qed.
Lemma ex_lookup : forall ft bs c x l k,
  (forall G, fault G (c, k) = find_name G c x l) ->
  (forall w, after w (c, k) = mentioned c x w) ->
  exactly ft bs c c [(c, k)] (resolve_local_variable x l).
Proof.
  intros ft bs c x l k HF HA. apply ex_one. intros G s Ha.
  assert (H := lookup_result _ _ _ _ _ x l Ha). rewrite HF.
  destruct (find_name G c x l) as [[e|]|]; [|contradiction|].
  - exists s. split; auto. split; [eapply agrees_holds; eauto | apply undone_refl].
  - destruct H as (v & s' & E). exists v, s'. split; auto.
    assert (Ha' := good_agrees _ _ _ _ _ _ _ _ _ _ _ _ _ _ _ (good_lookup ft bs c x l) Ha E).
    rewrite HA. unfold mentioned. destruct (in_locals x c); split; auto.
Qed.

(** ** Expressions *)
Definition Xe (e : expr) : Prop := forall ft bs c,
  exactly ft bs c c (expr_checks c e) (resolve_expression e).
Definition Xs (st : stmt) : Prop := forall ft bs c, calm c ->
  exactly ft bs c (declare_names (declared st) c) (checks c st) (resolve_statement st).
Definition Xf (f : fun_def) : Prop := forall t ft bs c,
  exactly ft bs c c (fun_checks (in_function (fun_of t) c) f) (resolve_function f t).
Definition Xc (d : class_def) : Prop := Xs (SClass d).

Lemma unchanged : forall ft G bs c s, agrees ft G bs c s ->
  holds (world_in G bs c) s /\ undone s s.
Proof. intros. split; [eapply agrees_holds; eauto | apply undone_refl]. Qed.

Lemma ex_super : forall v m l, Xe (ESuper v m l).
Proof.
  intros v m l ft bs c. cbn [resolve_expression expr_checks]. apply ex_one. intros G s Ha.
  assert (K := ag_class _ _ _ _ _ Ha). assert (H := lookup_result _ _ _ _ _ "super" l Ha).
  assert (HL := ex_lookup ft bs c "super" l (Assigns "super" l) ltac:(reflexivity) ltac:(reflexivity) G s Ha).
  cbn [run_checks fault after] in HL. change (w_table (world_in G bs c)) with G in HL.
  cbn [fault after]. unfold check_super, rbind, rget. destruct (class_type s); cbn in K; rewrite K.
  - exists s. split; [reflexivity|]. eapply unchanged; eauto.
  - exists s. split; [reflexivity|]. eapply unchanged; eauto.
  - unfold rret. destruct (find_name G c "super" l) as [[e|]|].
    + rewrite H. exists s. split; [reflexivity|]. eapply unchanged; eauto.
    + contradiction.
    + destruct HL as (a & s' & E & H1 & H2). rewrite E. eauto.
Qed.
Lemma own_result : forall ft G bs c s x l, agrees ft G bs c s ->
  check_own_initializer x l s =
  if mem x (c_blocked c)
  then RErr (cause_at l x "Cannot read local variable in its own initializer.") s else ROk tt s.
Proof.
  intros ft G bs c s x l [Hs _ _ _ _]. unfold check_own_initializer.
  destruct (c_locals c) as [|sc ls].
  - apply stack_nil in Hs. destruct Hs as (b & E & -> & ND & I1 & I2). injection E as <- ->.
    destruct (get_layout (global_state (c_blocked c) (c_globals c)) x G 0) as [(i & FA & EG)|(N & EG)]; rewrite EG.
    + cbn [v_state]. unfold global_state. destruct (mem x (c_blocked c)); auto.
      destruct (mem x (c_globals c)); auto.
    + destruct (mem x (c_blocked c)) eqn:M; auto. apply mem_In in M. exfalso. auto.
  - apply stack_cons in Hs. destruct Hs as (b & bs' & scs & E & -> & ND & I1 & _). injection E as <- ->.
    destruct (get_layout (local_state (c_blocked c)) x sc 0) as [(i & FA & EG)|(N & EG)]; rewrite EG.
    + cbn [v_state]. unfold local_state. destruct (mem x (c_blocked c)); auto.
    + destruct (mem x (c_blocked c)) eqn:M; auto. apply mem_In in M. exfalso. auto.
Qed.
Lemma ex_variable : forall x v l, Xe (EVariable x v l).
Proof.
  intros x v l ft bs c. cbn [resolve_expression expr_checks]. apply ex_one. intros G s Ha.
  assert (K := ag_class _ _ _ _ _ Ha). assert (H := lookup_result _ _ _ _ _ x l Ha).
  assert (HL := ex_lookup ft bs c x l (Assigns x l) ltac:(reflexivity) ltac:(reflexivity) G s Ha).
  cbn [run_checks fault after] in HL. change (w_table (world_in G bs c)) with G in HL.
  cbn [fault after].
  assert (E1 : check_this x l s =
    if match c_class c with OutsideClass => String.eqb x "this" | _ => false end
    then RErr (cause_at l "this" "Cannot use 'this' outside of a class.") s else ROk tt s).
  { unfold check_this, rbind, rget. rewrite K. destruct (class_type s); cbn; auto.
    destruct (String.eqb x "this"); reflexivity. }
  unfold rbind. rewrite E1.
  destruct (match c_class c with OutsideClass => _ | _ => _ end).
  { exists s. split; [reflexivity|]. eapply unchanged; eauto. }
  rewrite (own_result _ _ _ _ _ x l Ha).
  destruct (mem x (c_blocked c)).
  { exists s. split; [reflexivity|]. eapply unchanged; eauto. }
  unfold rret. destruct (find_name G c x l) as [[e|]|].
  - rewrite H. exists s. split; [reflexivity|]. eapply unchanged; eauto.
  - contradiction.
  - destruct HL as (a & s' & E & H1 & H2). rewrite E. eauto.
Qed.
Lemma ex_assign : forall x v e l, Xe e -> Xe (EAssign x v e l).
Proof.
  intros x v e l He ft bs c. cbn [resolve_expression expr_checks].
  eapply ex_seq; [apply He|intros e']. apply ex_map. now apply ex_lookup.
Qed.
Lemma ex_exprs : forall es, Forall Xe es -> forall ft bs c,
  exactly ft bs c c (flat_map (expr_checks c) es) (rmap resolve_expression es).
Proof.
  induction 1 as [|e r He Hr IH]; intros ft bs c; cbn [flat_map rmap]; [apply ex_ret|].
  eapply ex_seq; [apply He|intros e']. apply ex_map. apply IH.
Qed.
Lemma ex_entries : forall m, Forall (fun kv : string * expr => Xe (snd kv)) m -> forall ft bs c,
  exactly ft bs c c (flat_map (fun kv => match kv with (_, e) => expr_checks c e end) m)
    (rmap (fun kv => match kv with
                     | (k, e) => rlet e' <- resolve_expression e ;; rret (k, e')
                     end) m).
Proof.
  induction 1 as [|[k e] r He Hr IH]; intros ft bs c; cbn [flat_map rmap]; [apply ex_ret|].
  eapply ex_seq; [apply ex_map; apply He|intros e']. apply ex_map. apply IH.
Qed.
Lemma ex_expr_cases :
  (forall f args l, Xe f -> Forall Xe args -> Xe (ECall f args l)) /\
  (forall a op b l, Xe a -> Xe b -> Xe (EBinary a op b l)) /\
  (forall f, Xf f -> Xe (EFunction f)) /\
  (forall e p l, Xe e -> Xe (EGet e p l)) /\
  (forall e i l, Xe e -> Xe i -> Xe (EGetIndex e i l)) /\
  (forall e, Xe e -> Xe (EGrouping e)) /\
  (forall es, Forall Xe es -> Xe (EArray es)) /\
  (forall b, Xe (EBool b)) /\
  (forall m, Forall (fun kv => Xe (snd kv)) m -> Xe (EMap m)) /\
  (forall x, Xe (ENumber x)) /\
  Xe ENil /\
  (forall s, Xe (EString s)) /\
  (forall a op b, Xe a -> Xe b -> Xe (ELogical a op b)) /\
  (forall o p v l, Xe o -> Xe v -> Xe (ESet o p v l)) /\
  (forall a i v l, Xe a -> Xe i -> Xe v -> Xe (ESetIndex a i v l)) /\
  (forall op e l, Xe e -> Xe (EUnary op e l)).
Proof.
  repeat apply conj; intros; intros ft bs c; cbn [resolve_expression expr_checks];
    try apply ex_ret.
  - eapply ex_seq; [apply H|intros f']. apply ex_map. now apply ex_exprs.
  - eapply ex_seq; [apply H|intros a']. apply ex_map. apply H0.
  - apply ex_map. apply (H RPlain).
  - apply ex_map. apply H.
  - eapply ex_seq; [apply H|intros a']. apply ex_map. apply H0.
  - apply ex_map. apply H.
  - apply ex_map. now apply ex_exprs.
  - apply ex_map. now apply ex_entries.
  - eapply ex_seq; [apply H|intros a']. apply ex_map. apply H0.
  - eapply ex_seq; [apply H|intros a']. apply ex_map. apply H0.
  - eapply ex_seq; [apply H|intros a']. eapply ex_seq; [apply H0|intros i']. apply ex_map. apply H1.
  - apply ex_map. apply H.
Qed.

(** ** Scopes *)
Lemma ex_block : forall A ft bs c xs l (m : R A),
  exactly ft (c_blocked c :: bs) (open_scope nil c) (declare_names xs (open_scope nil c)) l m ->
  exactly ft bs c c ((c, Opens) :: l) (rdo begin_scope ;; rfinally m end_scope).
Proof.
  intros A ft bs c xs l m H G s Ha. cbn [run_checks fault after].
  unfold rbind, rfinally.
  destruct (begin_cases _ _ _ _ _ Ha) as [(Dp & E & Ha1)|(Dp & w & E)]; rewrite E; unfold depth_ok in Dp.
  - assert (Dp' := Dp). apply N.ltb_lt in Dp'. rewrite Dp'. specialize (H _ _ Ha1).
    change (world_in G (c_blocked c :: bs) (open_scope nil c)) with (world_in G bs c) in H.
    destruct (run_checks (world_in G bs c) l) as [[[e|]|] w].
    + destruct H as (s' & E2 & (Hh & Hr) & (U1 & U2 & U3)). rewrite E2. exists (end_scope s'). split; auto.
      cbn [set_scopes scopes length function_type class_type] in *.
      assert (Hs := stack_length _ _ _ _ _ (ag_stack _ _ _ _ _ Ha)).
      unfold end_scope. destruct (scopes s') as [|a [|b r]]; cbn in U1; try lia.
      split; [|repeat split; cbn; lia || auto].
      split; auto.
    + destruct H as (why & E2). rewrite E2. eauto.
    + destruct H as (a & s' & E2 & Ha2 & Ew). rewrite E2.
      apply agrees_close in Ha2. destruct Ha2 as [Ha2 _]. eexists _, _. split; [reflexivity|].
      split; auto.
  - apply N.ltb_nlt in Dp. rewrite Dp. eauto.
Qed.

(** ** Functions and statements *)
Lemma ex_stmts : forall b, Forall Xs b -> forall ft bs c, calm c ->
  exactly ft bs c (declare_names (flat_map declared b) c) (thread checks c b)
    (rmap resolve_statement b).
Proof.
  induction 1 as [|st r Hst Hr IH]; intros ft bs c HC.
  - cbn. rewrite declare_none. apply ex_ret.
  - cbn [flat_map]. rewrite thread_cons, declare_app. cbn [rmap].
    eapply ex_bind; [apply along_declare|apply Hst; auto|intros st'].
    apply ex_map. apply IH. now apply calm_declare.
Qed.
Lemma ex_params : forall ps ft bs c, calm c ->
  exactly ft bs c (declare_names (map p_name ps) c) (param_checks c ps)
    (rmap (fun p => define (p_name p) (p_loc p)) ps).
Proof.
  induction ps as [|p ps IH]; intros ft bs c HC.
  - cbn. rewrite declare_none. apply ex_ret.
  - cbn [map rmap param_checks]. change (p_name p :: map p_name ps) with ([p_name p] ++ map p_name ps).
    rewrite declare_app.
    change ((c, Defines (p_name p) (p_loc p)) :: ?r) with ([(c, Defines (p_name p) (p_loc p))] ++ r).
    eapply ex_bind; [apply along_declare|now apply ex_define|intros []].
    apply ex_map. apply IH. now apply calm_declare.
Qed.
Lemma ex_fun : forall ps b ty l, Forall Xs b -> Xf (FunDef ps b ty l).
Proof.
  intros ps b ty l Hb t ft bs c. cbn [resolve_function fun_checks].
  set (c' := in_function (fun_of t) c). intros G s Ha.
  unfold rbind at 1, rget. unfold rbind at 1, rmodify.
  rewrite (ag_ft _ _ _ _ _ Ha).
  assert (Ha1 := agrees_function t _ _ _ _ _ Ha). fold c' in Ha1.
  set (m := rdo rmap (fun p => define (p_name p) (p_loc p)) ps ;;
            rlet b' <- rmap resolve_statement b ;; rret (FunDef ps b' ty l)).
  assert (Hm : exactly t (c_blocked c' :: bs) (open_scope nil c')
     (declare_names (map p_name ps ++ flat_map declared b) (open_scope nil c'))
     (param_checks (open_scope nil c') ps ++ thread checks (open_scope (map p_name ps) c') b) m).
  { rewrite declare_app. eapply ex_bind; [apply along_declare|apply ex_params; apply agrees_calm|intros a].
    change (declare_names (map p_name ps) (open_scope nil c')) with (open_scope (map p_name ps) c').
    apply ex_map. apply ex_stmts; auto. intros ?; reflexivity. }
  assert (H := ex_block _ _ _ _ _ _ _ Hm _ _ Ha1). unfold rbind, rfinally in *.
  change (world_in G bs c') with (world_in G bs c) in H.
  destruct (run_checks (world_in G bs c) _) as [[[e|]|] w].
  - destruct H as (s' & E & Hh & U1 & U2 & U3).
    destruct (begin_scope _) as [[] s1|e1 s1|w1] eqn:EB; [| |discriminate].
    + destruct (m s1) as [f' s2|e2 s2|w2]; try discriminate.
      injection E as -> ->. eexists. split; [reflexivity|]. split; [exact Hh|].
      split; [exact U1|]. split; [symmetry; exact (ag_ft _ _ _ _ _ Ha)|exact U3].
    + unfold begin_scope in EB. destruct (_ <=? _)%N; discriminate.
  - destruct H as (why & E). destruct (begin_scope _) as [[] s1|e1 s1|w1]; [|discriminate|eauto].
    destruct (m s1) as [f' s2|e2 s2|w2]; try discriminate. eauto.
  - destruct H as (a & s' & E & Ha2 & Ew).
    destruct (begin_scope _) as [[] s1|e1 s1|w1]; try discriminate.
    destruct (m s1) as [f' s2|e2 s2|w2]; try discriminate.
    injection E as <- <-. eexists f', _. split; [reflexivity|].
    split; [|exact Ew]. rewrite (ag_ft _ _ _ _ _ Ha). eapply agrees_function_back; eauto.
Qed.
Lemma ex_block_stmt : forall b, Forall Xs b -> Xs (SBlock b).
Proof.
  intros b Hb ft bs c HC. cbn [declared resolve_statement checks]. rewrite declare_none.
  eapply ex_block. apply ex_map. apply ex_stmts; auto. apply agrees_calm.
Qed.
Lemma ex_fun_stmt : forall x f, Xf f -> Xs (SFun (NamedFun x f)).
Proof.
  intros x f Hf ft bs c HC. cbn [declared resolve_statement checks].
  change ((c, Defines x ?l) :: ?r) with ([(c, Defines x l)] ++ r).
  eapply ex_bind; [apply along_declare|now apply ex_define|intros []].
  apply ex_map. apply (Hf RPlain).
Qed.
Lemma ex_var : forall x i e l, Xe e -> Xs (SVar x i e l).
Proof.
  intros x i e l He ft bs c HC. cbn [declared resolve_statement checks].
  change ((c, Declares x l) :: ?r) with ([(c, Declares x l)] ++ r).
  eapply ex_bind; [apply along_init|now apply ex_declare|intros k].
  eapply ex_seq; [apply He|intros e'].
  apply (ex_map _ _ _ _ _ _ _ _ (fun _ => SVar x k e' l)). now apply ex_complete.
Qed.
Lemma ex_return : forall e l, Xe e -> Xs (SReturn e l).
Proof.
  intros e l He ft bs c HC. cbn [declared resolve_statement checks]. rewrite declare_none.
  change ((c, Returns e l) :: ?r) with ([(c, Returns e l)] ++ r).
  eapply ex_seq; [|intros []; apply ex_map; apply He].
  apply ex_one. intros G s Ha. unfold check_return, rbind, rget. cbn [fault after].
  rewrite (ag_fun _ _ _ _ _ Ha), (ag_ft _ _ _ _ _ Ha).
  destruct ft; cbn [fun_of].
  - exists s. split; [reflexivity|]. eapply unchanged; eauto.
  - exists tt, s. auto.
  - destruct e; cbn [is_nil_literal];
      try (exists s; split; [reflexivity|]; eapply unchanged; eauto; fail).
    exists tt, s. auto.
  - exists tt, s. auto.
Qed.
Lemma ex_stmt_cases :
  (forall l, Xs (SBreak l)) /\ (forall l, Xs (SContinue l)) /\
  (forall e, Xe e -> Xs (SExpression e)) /\
  (forall e, Xe e -> Xs (SPrint e)) /\
  (forall c t e, Xe c -> Xs t -> Popt Xs e -> Xs (SIf c t e)) /\
  (forall c b, Xe c -> Xs b -> Xs (SWhile c b)) /\
  (forall c b i, Xe c -> Xs b -> Xe i -> Xs (SWhileIncrement c b i)).
Proof.
  repeat apply conj; intros; intros ft bs cx HC; cbn [resolve_statement checks declared];
    rewrite ?declare_none; try apply ex_ret.
  - apply ex_map. apply H.
  - apply ex_map. apply H.
  - eapply ex_seq; [apply H | intros c']. rewrite declare_app.
    eapply ex_bind; [apply along_declare|apply H0; auto|intros t'].
    apply ex_map. destruct e as [e|]; cbn [ropt].
    + apply ex_map. apply H1. now apply calm_declare.
    + rewrite declare_none. apply ex_ret.
  - eapply ex_seq; [apply H | intros c']. apply ex_map. now apply H0.
  - eapply ex_seq; [apply H | intros c'].
    eapply ex_bind; [apply along_declare|apply H0; auto|intros b'].
    apply ex_map. apply H1.
Qed.

(** ** Classes *)
Definition method_checks (c : ctx) (ms : list named_fun) : list (ctx * check) :=
  flat_map (fun m => match m with
        | NamedFun n f => fun_checks (in_function (method_ctx n) c) f end) ms.
Lemma ex_methods : forall ms, Forall (Pn Xf) ms -> forall ft bs c,
  exactly ft bs c c (method_checks c ms)
    (rmap (fun m => match m with
                    | NamedFun n f => rlet f' <- resolve_function f (method_type n) ;;
                                      rret (NamedFun n f')
                    end) ms).
Proof.
  induction 1 as [|[n f] r Hf Hr IH]; intros ft bs c; cbn [method_checks flat_map rmap]; [apply ex_ret|].
  assert (ET : fun_of (method_type n) = method_ctx n).
  { unfold method_type, method_ctx. destruct (String.eqb n "init"); reflexivity. }
  rewrite <- ET. eapply ex_seq; [apply ex_map; apply (Hf (method_type n))|intros m'].
  apply ex_map. apply IH.
Qed.
(** In a new scope there is room for the first name. *)
Lemma ex_first : forall A ft bs c x l ks (m : R A),
  exactly ft (c_blocked c :: bs) (open_scope [x] c) (open_scope [x] c) ks m ->
  exactly ft (c_blocked c :: bs) (open_scope nil c) (declare_names [x] (open_scope nil c)) ks
    (rdo define x l ;; m).
Proof.
  intros A ft bs c x l ks m H G s Ha.
  assert (D := ex_define ft (c_blocked c :: bs) (open_scope nil c) x l (agrees_calm c) G s Ha).
  cbn [run_checks fault] in D.
  assert (E : introduce G (open_scope nil c) x l = None) by reflexivity.
  change (w_table (world_in G (c_blocked c :: bs) (open_scope nil c))) with G in D.
  rewrite E in D. cbn [after] in D. change (global (open_scope nil c)) with false in D. cbn iota in D.
  destruct D as ([] & s1 & E1 & Ha1 & Ew). unfold rbind. rewrite E1.
  change (w_table (world_in G (c_blocked c :: bs) (open_scope nil c))) with G in Ha1.
  change (declare_names [x] (open_scope nil c)) with (open_scope [x] c) in *.
  specialize (H _ _ Ha1).
  change (world_in G (c_blocked c :: bs) (open_scope [x] c)) with
         (world_in G (c_blocked c :: bs) (open_scope nil c)) in H.
  destruct (run_checks _ ks) as [[[e|]|] w]; auto.
  destruct H as (s' & E2 & Hh & U). exists s'. split; auto. split; auto.
  eapply undone_trans; [|exact U].
  eapply (agrees_undone _ _ _ _ (open_scope nil c) (open_scope [x] c)); eauto.
Qed.
Lemma ex_this_block : forall l ms, Forall (Pn Xf) ms -> forall ft bs c,
  exactly ft bs c c ((c, Opens) :: method_checks (open_scope ["this"] c) ms) (this_block l ms).
Proof.
  intros l ms Hms ft bs c. unfold this_block. eapply ex_block. apply ex_first. now apply ex_methods.
Qed.
Lemma ex_super_block : forall l ms, Forall (Pn Xf) ms -> forall ft bs c,
  exactly ft bs c c ((c, Opens) :: (open_scope ["super"] c, Opens) ::
                     method_checks (open_scope ["this"] (open_scope ["super"] c)) ms) (super_block l ms).
Proof.
  intros l ms Hms ft bs c. unfold super_block. eapply ex_block. apply ex_first. now apply ex_this_block.
Qed.
Lemma ex_ext : forall A ft bs c c' l (m m' : R A), (forall s, m s = m' s) ->
  exactly ft bs c c' l m -> exactly ft bs c c' l m'.
Proof.
  intros A ft bs c c' l m m' E H G s Ha. rewrite <- E. exact (H G s Ha).
Qed.
Lemma ex_inherits : forall ft bs c x super,
  exactly ft bs c c [(c, Inherits x super)] (check_self_inheritance x super).
Proof.
  intros. apply ex_one. intros G s Ha. unfold check_self_inheritance. cbn [fault after].
  destruct super as [e|]; [|exists tt, s; auto].
  destruct e; try (exists tt, s; auto; fail).
  destruct (String.eqb x0 x).
  - exists s. split; [reflexivity|]. eapply unchanged; eauto.
  - exists tt, s. auto.
Qed.

Lemma ex_class_body : forall x super ms l, Popt Xe super -> Forall (Pn Xf) ms ->
  forall ft bs c, calm c ->
  exactly ft bs (in_class (class_of (match super with Some _ => Subclass | None => PlainClass end)) c)
    (declare_names [x] (in_class (class_of (match super with Some _ => Subclass | None => PlainClass end)) c))
    (class_checks c (ClassDef x super ms l)) (resolve_class (ClassDef x super ms l)).
Proof.
  intros x super ms l He Hms ft bs c HC. cbn [class_checks].
  set (k := class_of _). set (c1 := in_class k c).
  assert (Ec : in_class k (declare_names [x] c) = declare_names [x] c1).
  { unfold c1, declare_names, in_class. destruct (c_locals c); reflexivity. }
  assert (HR : forall w r,
    run_checks w ((c, Defines x l) :: (declare_names [x] c, Inherits x super) :: r) =
    run_checks w ([(c1, Defines x l)] ++ [(declare_names [x] c1, Inherits x super)] ++ r)).
  { intros. reflexivity. }
  destruct super as [e|].
  - apply ex_ext with (m := rdo define x l ;; rdo check_self_inheritance x (Some e) ;;
       rlet e' <- resolve_expression e ;;
       rlet ms' <- super_block l ms ;; rret (ClassDef x (Some e') ms' l)).
    { intros. symmetry. apply class_some. }
    subst k. cbn [class_of] in *. rewrite Ec.
    intros G s Ha. rewrite HR. revert G s Ha.
    match goal with |- forall G s, _ -> match run_checks (world_in G bs c1) ?ks with _ => _ end =>
      change (exactly ft bs c1 (declare_names [x] c1) ks
        (rdo define x l ;; rdo check_self_inheritance x (Some e) ;;
         rlet e' <- resolve_expression e ;;
         rlet ms' <- super_block l ms ;; rret (ClassDef x (Some e') ms' l))) end.
    eapply ex_bind; [apply along_declare|now apply ex_define|intros []].
    eapply ex_seq; [apply ex_inherits|intros []].
    eapply ex_seq; [apply He|intros e']. apply ex_map. now apply ex_super_block.
  - apply ex_ext with (m := rdo define x l ;; rdo check_self_inheritance x None ;;
       rlet ms' <- this_block l ms ;; rret (ClassDef x None ms' l)).
    { intros. symmetry. apply class_none. }
    subst k. cbn [class_of] in *. rewrite Ec.
    intros G s Ha. rewrite HR. revert G s Ha.
    match goal with |- forall G s, _ -> match run_checks (world_in G bs c1) ?ks with _ => _ end =>
      change (exactly ft bs c1 (declare_names [x] c1) ks
        (rdo define x l ;; rdo check_self_inheritance x None ;;
         rlet ms' <- this_block l ms ;; rret (ClassDef x None ms' l))) end.
    eapply ex_bind; [apply along_declare|now apply ex_define|intros []].
    eapply ex_seq; [apply ex_inherits|intros []].
    apply ex_map. now apply ex_this_block.
Qed.
Lemma ex_class : forall x super ms l, Popt Xe super -> Forall (Pn Xf) ms ->
  Xc (ClassDef x super ms l).
Proof.
  intros x super ms l He Hms ft bs c HC G s Ha.
  assert (H := ex_class_body x super ms l He Hms ft bs c HC _ _
                 (agrees_class (match super with Some _ => Subclass | None => PlainClass end) _ _ _ _ _ Ha)).
  cbn [checks declared resolve_statement].
  unfold rbind, rget, rmodify, rfinally, rret.
  replace (match super with Some _ => Subclass | None => PlainClass end)
    with (match ClassDef x super ms l with
          | ClassDef _ (Some _) _ _ => Subclass
          | ClassDef _ None _ _ => PlainClass end) in H at 2 by (destruct super; reflexivity).
  set (k := class_of (match super with Some _ => Subclass | None => PlainClass end)) in *.
  change (world_in G bs (in_class k c)) with (world_in G bs c) in H.
  destruct (run_checks (world_in G bs c) _) as [[[e|]|] w].
  - destruct H as (s' & E & Hh & U1 & U2 & U3).
    destruct (resolve_class (ClassDef x super ms l) _) as [d' s1|e' s1|why]; try discriminate.
    injection E as -> ->. eexists. split; [reflexivity|]. split; [exact Hh|].
    split; [exact U1|]. split; [exact U2|reflexivity].
  - destruct H as (why & E).
    destruct (resolve_class (ClassDef x super ms l) _) as [d' s1|e' s1|why']; try discriminate.
    eauto.
  - destruct H as (a & s' & E & Ha' & Ew).
    destruct (resolve_class (ClassDef x super ms l) _) as [d' s1|e' s1|why']; try discriminate.
    injection E as -> ->. eexists _, _. split; [reflexivity|].
    split; [eapply agrees_class_back; eauto|].
    rewrite Ew at 1. unfold world_in, declare_names, in_class. destruct (c_locals c); reflexivity.
Qed.

Theorem resolver_exact :
  (forall st, Xs st) /\ (forall e, Xe e) /\ (forall d, Xc d) /\ (forall f, Xf f).
Proof.
  destruct ex_expr_cases as (X1 & X2 & X3 & X4 & X5 & X6 & X7 & X8 & X9 & X10 & X11 & X12 & X13 & X14 & X15 & X16).
  destruct ex_stmt_cases as (S1 & S2 & S3 & S4 & S5 & S6 & S7).
  apply tree_ind; auto.
  - apply ex_block_stmt.
  - apply ex_fun_stmt.
  - apply ex_return.
  - apply ex_var.
  - apply ex_assign.
  - apply ex_super.
  - apply ex_variable.
  - apply ex_class.
  - apply ex_fun.
Qed.
