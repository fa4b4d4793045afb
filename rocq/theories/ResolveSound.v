(** The resolver meets its specification: one induction over syntax trees. *)
From Verif Require Import Base F64 Token Ast AstInd Resolver SpecResolve ResolveStep.
From Coq Require Import Lia.

Definition fine (cn : ctx * node) : Prop := allowed cn /\ depth_rule cn.
Definition faulty (ns : list (ctx * node)) (e : cause) : Prop := Exists (blames e) ns.
Definition deep (ns : list (ctx * node)) : Prop := Exists (fun cn => ~ depth_rule cn) ns.

Definition good_nodes {A} (ft : rfun_type) (bs : list (list string)) (c c' : ctx)
           (xs : list string) (ns : list (ctx * node)) (Q : list string -> A -> Prop)
           (m : R A) : Prop :=
  good ft bs c c' (flat_map mention ns) xs (faulty ns) (deep ns)
       (fun G a => Forall fine ns /\ Q G a) m.

Definition Pe (e : expr) : Prop := forall ft bs c,
  good_nodes ft bs c c nil (expr_nodes c e)
    (fun G e' => erase_expr e' = erase_expr e /\ Forall (addressed G) (expr_nodes c e'))
    (resolve_expression e).
Definition Ps (st : stmt) : Prop := forall ft bs c, calm c ->
  good_nodes ft bs c (declare_names (declared st) c) (declared st) (nodes c st)
    (fun G st' => erase st' = erase st /\ Forall (addressed G) (nodes c st'))
    (resolve_statement st).
Definition Pf (f : fun_def) : Prop := forall t ft bs c,
  let c' := in_function (fun_of t) c in
  good_nodes ft bs c c nil (fun_nodes c' f)
    (fun G f' => erase_fun f' = erase_fun f /\ Forall (addressed G) (fun_nodes c' f'))
    (resolve_function f t).
Definition Pc (d : class_def) : Prop := Ps (SClass d).

(** ** Combining *)
Lemma faulty_app : forall a b e, faulty (a ++ b) e <-> faulty a e \/ faulty b e.
Proof. intros. apply Exists_app. Qed.
Lemma faulty_cons : forall a b e, faulty (a :: b) e <-> blames e a \/ faulty b e.
Proof. intros. apply Exists_cons. Qed.
Lemma faulty_nil : forall e, faulty nil e <-> False.
Proof. intros. apply Exists_nil. Qed.
Lemma deep_app : forall a b, deep (a ++ b) <-> deep a \/ deep b.
Proof. intros. apply Exists_app. Qed.
Lemma deep_cons : forall a b, deep (a :: b) <-> ~ depth_rule a \/ deep b.
Proof. intros. apply Exists_cons. Qed.
Lemma deep_nil : deep nil <-> False.
Proof. intros. apply Exists_nil. Qed.
Lemma Forall_cons_iff' : forall A (P : A -> Prop) a l, Forall P (a :: l) <-> P a /\ Forall P l.
Proof. intros. split; [intros H; inversion H; auto | intros [H1 H2]; constructor; auto]. Qed.
Lemma Forall_nil_iff' : forall A (P : A -> Prop), Forall P nil <-> True.
Proof. intros. split; auto. Qed.

Lemma gn_ret : forall A ft bs c (Q : list string -> A -> Prop) a,
  (forall G, Q G a) -> good_nodes ft bs c c nil nil Q (rret a).
Proof.
  intros A ft bs c Q a H. eapply good_conv; [apply good_ret with (Q := fun G a => Q G a); auto| | | | |];
    cbn; auto; try tauto.
Qed.
Lemma gn_bind : forall A B ft bs c c1 c2 xs1 xs2 ns1 ns2 (Q1 : list string -> A -> Prop)
  (Q2 : list string -> B -> Prop) (m : R A) (f : A -> R B),
  good_nodes ft bs c c1 xs1 ns1 Q1 m -> step c xs1 c1 ->
  (forall a, good_nodes ft bs c1 c2 xs2 ns2 (fun G b => Q1 G a -> Q2 G b) (f a)) ->
  good_nodes ft bs c c2 (xs1 ++ xs2) (ns1 ++ ns2) Q2 (rbind m f).
Proof.
  intros A B ft bs c c1 c2 xs1 xs2 ns1 ns2 Q1 Q2 m f H1 HS H2.
  eapply good_conv.
  - eapply good_bind with (Q2 := fun G b => Forall fine (ns1 ++ ns2) /\ Q2 G b);
      [exact H1 | exact HS | intros a].
    eapply good_conv; [apply (H2 a)|reflexivity|reflexivity|eauto|eauto|].
    cbn. intros G b (F2 & HQ) (F1 & H). rewrite Forall_app. auto.
  - symmetry. apply flat_map_app.
  - reflexivity.
  - intros e. rewrite faulty_app. auto.
  - rewrite deep_app. auto.
  - auto.
Qed.
Lemma gn_conv : forall A ft bs c c' xs ns ns' (Q Q' : list string -> A -> Prop) (m : R A),
  good_nodes ft bs c c' xs ns Q m ->
  ns = ns' -> (forall G a, Q G a -> Q' G a) ->
  good_nodes ft bs c c' xs ns' Q' m.
Proof.
  intros A ft bs c c' xs ns ns' Q Q' m H E HQ. subst.
  eapply good_conv; [exact H|reflexivity|reflexivity|auto|auto|]. cbn. intros G a []. auto.
Qed.
Lemma good_map : forall A B ft bs c c' us xs Bl (D : Prop) (Q1 : list string -> A -> Prop)
  (Q2 : list string -> B -> Prop) (m : R A) (g : A -> B),
  good ft bs c c' us xs Bl D Q1 m -> (forall G a, Q1 G a -> Q2 G (g a)) ->
  good ft bs c c' us xs Bl D Q2 (rbind m (fun a => rret (g a))).
Proof.
  intros A B ft bs c c' us xs Bl D Q1 Q2 m g H HQ G s Ha. specialize (H G s Ha).
  unfold rbind. destruct (m s) as [a s1|e s1|w]; auto. cbn. destruct H as [H1 H2].
  split; auto.
Qed.
Lemma gn_map : forall A B ft bs c c' xs ns (Q1 : list string -> A -> Prop)
  (Q2 : list string -> B -> Prop) (m : R A) (g : A -> B),
  good_nodes ft bs c c' xs ns Q1 m -> (forall G a, Q1 G a -> Q2 G (g a)) ->
  good_nodes ft bs c c' xs ns Q2 (rbind m (fun a => rret (g a))).
Proof.
  intros A B ft bs c c' xs ns Q1 Q2 m g H HQ G s Ha. specialize (H G s Ha).
  unfold rbind. destruct (m s) as [a s1|e s1|w]; auto. cbn. destruct H as [H1 H2].
  split; auto. intros GG P. destruct (H2 GG P). auto.
Qed.
(** First something that declares nothing. *)
Lemma gn_seq : forall A B ft bs c c2 xs ns1 ns2 (Q1 : list string -> A -> Prop)
  (Q2 : list string -> B -> Prop) (m : R A) (f : A -> R B),
  good_nodes ft bs c c nil ns1 Q1 m ->
  (forall a, good_nodes ft bs c c2 xs ns2 (fun G b => Q1 G a -> Q2 G b) (f a)) ->
  good_nodes ft bs c c2 xs (ns1 ++ ns2) Q2 (rbind m f).
Proof.
  intros. change xs with (nil ++ xs). eapply gn_bind; eauto using step_refl.
Qed.
(** A node to which only its slots matter. *)
Definition plain (n : node) : Prop := match n with
  | NStmt (SBlock _) | NStmt (SClass _) | NStmt (SReturn _ _) | NFun _
  | NStmt (SVar _ _ _ _) | NStmt (SFun _)
  | NExpr (EVariable _ _ _) | NExpr (ESuper _ _ _) | NExpr (EAssign _ _ _ _) => False
  | _ => True
  end.
Lemma plain_fine : forall c n, plain n -> fine (c, n).
Proof.
  intros c n H. unfold fine, allowed.
  destruct n as [[]|[]|]; cbn in *; try contradiction; tauto.
Qed.
Lemma plain_mention : forall c n, plain n -> mention (c, n) = nil.
Proof. intros c n H. destruct n as [[]|[]|]; cbn in *; try contradiction; auto. Qed.
Lemma plain_addressed : forall G c n, plain n -> addressed G (c, n).
Proof. intros G c n H. destruct n as [[]|[]|]; cbn in *; try contradiction; auto. Qed.

(** A plain node before or after the others. *)
Lemma gn_node_first : forall A ft bs c c' xs ns n (Q : list string -> A -> Prop) (m : R A),
  good_nodes ft bs c c' xs ns Q m -> plain n ->
  good_nodes ft bs c c' xs ((c, n) :: ns) Q m.
Proof.
  intros A ft bs c c' xs ns n Q m H P. eapply good_conv; [exact H| | reflexivity| | |].
  - cbn [flat_map]. now rewrite plain_mention.
  - intros e He. rewrite faulty_cons. auto.
  - rewrite deep_cons. auto.
  - cbn. intros G a []. split; auto. constructor; auto using plain_fine.
Qed.
Lemma gn_node_last : forall A ft bs c c' xs ns n (Q : list string -> A -> Prop) (m : R A),
  good_nodes ft bs c c' xs ns Q m -> plain n ->
  good_nodes ft bs c c' xs (ns ++ [(c, n)]) Q m.
Proof.
  intros A ft bs c c' xs ns n Q m H P. eapply good_conv; [exact H| | reflexivity| | |].
  - rewrite flat_map_app. cbn [flat_map]. rewrite plain_mention by auto. now rewrite !app_nil_r.
  - intros e He. rewrite faulty_app. auto.
  - rewrite deep_app. auto.
  - cbn. intros G a []. split; auto. apply Forall_app. split; auto using plain_fine.
Qed.

(** ** Scopes *)
Definition depth_ok (c : ctx) : Prop := (N.of_nat (length (c_locals c)) < 65534)%N.
Lemma begin_cases : forall ft G bs c s, agrees ft G bs c s ->
  (depth_ok c /\ begin_scope s = ROk tt (set_scopes (nil :: scopes s) s) /\
   agrees ft G (c_blocked c :: bs) (open_scope nil c) (set_scopes (nil :: scopes s) s)) \/
  (~ depth_ok c /\ exists w, begin_scope s = RPanic w).
Proof.
  intros ft G bs c s [Hs F1 F2 K Hd]. assert (L := stack_length _ _ _ _ _ Hs).
  unfold begin_scope, depth_ok, var_loc_max_distance.
  destruct (65535 <=? N.of_nat (length (scopes s)))%N eqn:E.
  - apply N.leb_le in E. right. split; eauto. lia.
  - apply N.leb_gt in E. left. split; [lia|]. split; auto. constructor; cbn; auto.
    + split; auto. split; auto. split; [constructor | intros y []].
    + cbn [length]. lia.
Qed.
Lemma agrees_close : forall ft G bs c xs s,
  agrees ft G (c_blocked c :: bs) (declare_names xs (open_scope nil c)) s ->
  agrees ft G bs c (end_scope s) /\ NoDup xs.
Proof.
  intros ft G bs c xs s [Hs F1 F2 K Hd]. cbn [declare_names open_scope c_locals c_blocked c_globals app] in Hs. apply stack_cons in Hs.
  destruct Hs as (b & bs' & scs' & E & ES & ND & _ & Hs). injection E as <- <-.
  split; auto. unfold end_scope. rewrite ES. cbn. constructor; cbn; auto.
  rewrite ES in Hd. cbn in Hd. lia.
Qed.

Lemma open_clash : forall G c us xs e, clash G (open_scope nil c) us xs e ->
  scope_error xs e \/ clash G c us nil e.
Proof.
  intros G c us xs e [(sc & r & L & E)|H]; [left | right; right; auto].
  cbn in L. injection L as <- <-. exact E.
Qed.

Lemma agrees_calm : forall c, calm (open_scope nil c).
Proof. intros c H. reflexivity. Qed.
Lemma calm_declare : forall c xs, calm c -> calm (declare_names xs c).
Proof.
  intros c xs H. unfold calm, declare_names in *. destruct (c_locals c); cbn; [tauto|].
  intros _. rewrite H by discriminate. reflexivity.
Qed.

Lemma good_block : forall A ft bs c xs us B D (Q : list string -> A -> Prop) (m : R A),
  good ft (c_blocked c :: bs) (open_scope nil c) (declare_names xs (open_scope nil c))
    us xs B D Q m ->
  good ft bs c c us nil
    (fun e => B e \/ scope_error xs e)
    (D \/ ~ depth_ok c)
    (fun G a => Q G a /\ NoDup xs /\ depth_ok c)
    (rdo begin_scope ;; rfinally m end_scope).
Proof.
  intros A ft bs c xs us B D Q m H G s Ha. unfold rbind, rfinally.
  destruct (begin_cases _ _ _ _ _ Ha) as [(Dp & E & Ha1)|(Dp & w & E)]; rewrite E; auto.
  specialize (H _ _ Ha1). destruct (m _) as [a s1|e s1|w]; auto.
  - destruct H as [Ha2 HQ]. apply agrees_close in Ha2. destruct Ha2 as [Ha2 ND].
    split; auto.
  - destruct H as [H|H]; auto. apply open_clash in H. tauto.
Qed.

(** Sequences of statements. *)
Lemma thread_cons : forall A (f : ctx -> stmt -> list A) c st r,
  thread f c (st :: r) = f c st ++ thread f (declare_names (declared st) c) r.
Proof. reflexivity. Qed.
(** The names a statement declares do not depend on the slots. *)
Lemma declared_erase : forall st, declared (erase st) = declared st.
Proof.
  fix IH 1. intros [b|l|[x su ms l]|l|e|[x f]|c t [o|]|e|e l|x i e l|c b|c b i]; cbn; auto.
  - rewrite !IH. reflexivity.
  - rewrite !IH. reflexivity.
Qed.
Lemma declared_same : forall a b, erase a = erase b -> declared a = declared b.
Proof. intros a b H. rewrite <- (declared_erase a), <- (declared_erase b). now rewrite H. Qed.

Lemma gn_stmts : forall b, Forall Ps b -> forall ft bs c, calm c ->
  good_nodes ft bs c (declare_names (flat_map declared b) c) (flat_map declared b)
    (thread nodes c b)
    (fun G b' => map erase b' = map erase b /\ Forall (addressed G) (thread nodes c b'))
    (rmap resolve_statement b).
Proof.
  induction 1 as [|st r Hst Hr IH]; intros ft bs c HC.
  - cbn. rewrite declare_none. apply gn_ret. cbn. auto.
  - cbn [flat_map]. rewrite thread_cons, declare_app. cbn [rmap].
    eapply gn_bind; [apply Hst; auto | apply step_declare | intros st'].
    eapply gn_map.
    + apply IH. now apply calm_declare.
    + intros G r' (E2 & A2) (E1 & A1). cbn [map]. rewrite E1, E2. split; auto.
      rewrite thread_cons, Forall_app. split; auto.
      now rewrite (declared_same st' st).
Qed.

Lemma gn_exprs : forall es, Forall Pe es -> forall ft bs c,
  good_nodes ft bs c c nil (flat_map (expr_nodes c) es)
    (fun G es' => map erase_expr es' = map erase_expr es /\
                  Forall (addressed G) (flat_map (expr_nodes c) es'))
    (rmap resolve_expression es).
Proof.
  induction 1 as [|e r He Hr IH]; intros ft bs c.
  - apply gn_ret. cbn. auto.
  - cbn [flat_map rmap]. eapply gn_seq; [apply He; auto | intros e'].
    eapply gn_map; [apply IH |].
    intros G r' (E2 & A2) (E1 & A1). cbn [map flat_map]. rewrite E1, E2, Forall_app. auto.
Qed.

Lemma gn_entries : forall m, Forall (fun kv => Pe (snd kv)) m -> forall ft bs c,
  good_nodes ft bs c c nil (flat_map (fun kv => match kv with (_, e) => expr_nodes c e end) m)
    (fun G m' => map (fun kv => match kv with (k, e) => (k, erase_expr e) end) m' =
                 map (fun kv => match kv with (k, e) => (k, erase_expr e) end) m /\
        Forall (addressed G) (flat_map (fun kv => match kv with (_, e) => expr_nodes c e end) m'))
    (rmap (fun kv : string * expr => match kv with
                     | (k, e) => rlet e' <- resolve_expression e ;; rret (k, e')
                     end) m).
Proof.
  induction 1 as [|[k e] r He Hr IH]; intros ft bs c.
  - apply gn_ret. cbn. auto.
  - cbn [flat_map rmap].
    eapply gn_seq with (Q1 := fun G kv => map (fun kv => match kv with (k, e) => (k, erase_expr e) end) [kv] =
         map (fun kv => match kv with (k, e) => (k, erase_expr e) end) [(k, e)] /\
         Forall (addressed G) (match kv with (_, e) => expr_nodes c e end));
      [| intros e'].
    + eapply gn_map; [apply He |].
      intros G e' (E1 & A1). cbn. now rewrite E1.
    + eapply gn_map; [apply IH |].
      intros G r' (E2 & A2) (E1 & A1). destruct e' as [k' e']. cbn [map flat_map] in *.
      injection E1 as -> E1. rewrite E1, E2, Forall_app. auto.
Qed.

(** ** Expressions *)
Lemma gn_super : forall v m l, Pe (ESuper v m l).
Proof.
  intros v m l ft bs c. unfold good_nodes. cbn [resolve_expression expr_nodes app flat_map].
  intros G s Ha. unfold check_super, rbind at 1 2, rget.
  assert (K := ag_class _ _ _ _ _ Ha).
  destruct (class_type s) eqn:EK; cbn [rfail rret].
  - left. constructor. left. auto.
  - left. constructor. right. auto.
  - assert (H := good_lookup ft bs c "super" l G s Ha). unfold rbind.
    destruct (resolve_local_variable "super" l s) as [u s1|e s1|w];
      cbn [mention flat_map]; rewrite ?app_nil_r; [|destruct H as [[]|H]; auto|destruct H].
    destruct H as [H1 H2]. cbn [rret]. split; auto. intros GG P. split; [|split].
    + constructor; auto. unfold fine, allowed; cbn. tauto.
    + reflexivity.
    + constructor; auto. cbn. auto.
Qed.
Lemma gn_variable : forall x v l, Pe (EVariable x v l).
Proof.
  intros x v l ft bs c. unfold good_nodes. cbn [resolve_expression expr_nodes app flat_map].
  intros G s Ha. assert (K := ag_class _ _ _ _ _ Ha).
  assert (T : check_this x l s = ROk tt s /\ (x = "this" -> c_class c <> OutsideClass) \/
              (x = "this" /\ c_class c = OutsideClass /\
               check_this x l s = RErr (cause_at l "this" "Cannot use 'this' outside of a class.") s)).
  { unfold check_this, rbind, rget. rewrite K. destruct (class_type s); cbn.
    - destruct (String.eqb_spec x "this") as [E|E]; [right; auto | left].
      split; auto; intros; contradiction.
    - left; split; [reflexivity | discriminate].
    - left; split; [reflexivity | discriminate]. }
  unfold rbind at 1. destruct T as [(E & T)|(E1 & E2 & E)]; rewrite E.
  2:{ left. constructor. left. auto. }
  assert (O : check_own_initializer x l s = ROk tt s /\ ~ In x (c_blocked c) \/
              (In x (c_blocked c) /\ check_own_initializer x l s =
               RErr (cause_at l x "Cannot read local variable in its own initializer.") s)).
  { unfold check_own_initializer. destruct Ha as [Hs _ _ _ _].
    destruct (c_locals c) as [|sc ls].
    - apply stack_nil in Hs. destruct Hs as (b0 & E0 & ES & ND & I1 & I2).
      injection E0 as <- ->. rewrite ES.
      destruct (get_layout (global_state (c_blocked c) (c_globals c)) x G 0)
        as [(i & FA & EG)|(NI & EG)]; rewrite EG.
      + cbn [v_state]. unfold global_state. destruct (mem x (c_blocked c)) eqn:M.
        * right. split; auto. now apply mem_In.
        * apply mem_not in M. left. destruct (mem x (c_globals c)); auto.
      + left. split; auto.
    - apply stack_cons in Hs. destruct Hs as (b0 & bs0 & scs & E0 & ES & ND & I1 & Hs).
      injection E0 as <- <-. rewrite ES.
      destruct (get_layout (local_state (c_blocked c)) x sc 0)
        as [(i & FA & EG)|(NI & EG)]; rewrite EG.
      + cbn [v_state]. unfold local_state. destruct (mem x (c_blocked c)) eqn:M.
        * right. split; auto. now apply mem_In.
        * apply mem_not in M. left. auto.
      + left. split; auto. }
  unfold rbind at 1. destruct O as [(E1 & O)|(O & E1)]; rewrite E1.
  2:{ left. constructor. right. auto. }
  assert (H := good_lookup ft bs c x l G s Ha). unfold rbind.
  destruct (resolve_local_variable x l s) as [u s1|e s1|w];
    cbn [mention flat_map]; rewrite ?app_nil_r; [|destruct H as [[]|H]; auto|destruct H].
  destruct H as [H1 H2]. cbn [rret]. split; auto. intros GG P. split; [|split].
  + constructor; auto. unfold fine, allowed; cbn. tauto.
  + reflexivity.
  + constructor; auto. cbn. auto.
Qed.
Lemma gn_assign : forall x v e l, Pe e -> Pe (EAssign x v e l).
Proof.
  intros x v e l He ft bs c. cbn [resolve_expression expr_nodes].
  eapply gn_seq; [apply He | intros e'].
  intros G s Ha. assert (H := good_lookup ft bs c x l G s Ha). unfold rbind.
  destruct (resolve_local_variable x l s) as [u s1|err s1|w];
    cbn [mention flat_map]; rewrite ?app_nil_r; [|destruct H as [[]|H]; auto|destruct H].
  destruct H as [H1 H2]. cbn [rret]. split; auto. intros GG P. split.
  - constructor; auto. unfold fine, allowed; cbn. tauto.
  - intros (E & A). cbn [erase_expr expr_nodes]. rewrite E. split; auto.
    rewrite Forall_app. split; auto. constructor; auto. cbn. auto.
Qed.

Ltac seqs := repeat (first
  [ eapply gn_seq; [solve [eauto using gn_exprs, gn_entries] | let a := fresh "a" in intros a]
  | eapply gn_map; [solve [eauto using gn_exprs, gn_entries] | let a := fresh "a" in intros G a]]).
Ltac ends := cbn [expr_nodes erase_expr nodes erase];
  repeat match goal with |- _ /\ _ -> _ => intros (? & ?) end;
  rewrite ?Forall_app, ?Forall_cons_iff', ?Forall_app;
  repeat split; try congruence; auto using plain_addressed.

Lemma expr_cases : 
  (forall f args l, Pe f -> Forall Pe args -> Pe (ECall f args l)) /\
  (forall a op b l, Pe a -> Pe b -> Pe (EBinary a op b l)) /\
  (forall f, Pf f -> Pe (EFunction f)) /\
  (forall e p l, Pe e -> Pe (EGet e p l)) /\
  (forall e i l, Pe e -> Pe i -> Pe (EGetIndex e i l)) /\
  (forall e, Pe e -> Pe (EGrouping e)) /\
  (forall es, Forall Pe es -> Pe (EArray es)) /\
  (forall b, Pe (EBool b)) /\
  (forall m, Forall (fun kv => Pe (snd kv)) m -> Pe (EMap m)) /\
  (forall x, Pe (ENumber x)) /\
  Pe ENil /\
  (forall s, Pe (EString s)) /\
  (forall a op b, Pe a -> Pe b -> Pe (ELogical a op b)) /\
  (forall o p v l, Pe o -> Pe v -> Pe (ESet o p v l)) /\
  (forall a i v l, Pe a -> Pe i -> Pe v -> Pe (ESetIndex a i v l)) /\
  (forall op e l, Pe e -> Pe (EUnary op e l)).
Proof.
  repeat apply conj; intros; intros ft bs c; cbn [resolve_expression expr_nodes];
    (apply gn_node_last; [|exact I]).
  all: seqs.
  all: try (apply gn_ret; intros; ends; fail).
  all: try (ends; fail).
  eapply gn_map; [apply (H RPlain) | intros G a; ends].
Qed.

(** ** Functions *)
Lemma gn_params : forall ps ft bs c, calm c -> c_locals c <> nil ->
  good_nodes ft bs c (declare_names (map p_name ps) c) (map p_name ps) nil (fun _ _ => True)
    (rmap (fun p => define (p_name p) (p_loc p)) ps).
Proof.
  induction ps as [|p ps IH]; intros ft bs c HC HL.
  - cbn. rewrite declare_none. apply gn_ret. auto.
  - cbn [map rmap]. change (p_name p :: map p_name ps) with ([p_name p] ++ map p_name ps).
    rewrite declare_app. change (@nil (ctx * node)) with (@nil (ctx * node) ++ nil).
    eapply gn_bind with (Q1 := fun _ _ => True); [|apply step_declare|intros a].
    + eapply good_conv; [apply good_define; auto| |reflexivity| | |]; cbn; try tauto; auto.
      unfold here. destruct (c_locals c); [contradiction | reflexivity].
    + eapply gn_map; [apply IH|cbn; auto].
      * now apply calm_declare.
      * unfold declare_names. destruct (c_locals c); [contradiction | discriminate].
Qed.
Lemma agrees_function : forall t ft G bs c s, agrees ft G bs c s ->
  agrees t G bs (in_function (fun_of t) c) (set_function_type t s).
Proof. intros t ft G bs c s [Hs F1 F2 K Hd]. constructor; cbn; auto. Qed.
Lemma agrees_function_back : forall t ft G G' bs c s s0, agrees ft G' bs c s0 ->
  agrees t G bs (in_function (fun_of t) c) s ->
  agrees ft G bs c (set_function_type ft s).
Proof.
  intros t ft G G' bs c s s0 [_ _ F0 _ _] [Hs F1 F2 K Hd]. constructor; cbn in *; auto.
Qed.

Lemma fun_case : forall ps b ty l, Forall Ps b -> Pf (FunDef ps b ty l).
Proof.
  intros ps b ty l Hb t ft bs c c'. unfold good_nodes. cbn [resolve_function fun_nodes].
  intros G s Ha. unfold rbind at 1, rget. unfold rbind at 1, rmodify.
  rewrite (ag_ft _ _ _ _ _ Ha).
  assert (Ha1 := agrees_function t _ _ _ _ _ Ha). fold c' in Ha1.
  set (m := rdo rmap (fun p => define (p_name p) (p_loc p)) ps ;; 
            rlet b' <- rmap resolve_statement b ;; rret (FunDef ps b' ty l)).
  set (c1 := open_scope nil c').
  assert (Hm : good_nodes t (c_blocked c' :: bs) c1
     (declare_names (map p_name ps ++ flat_map declared b) c1)
     (map p_name ps ++ flat_map declared b)
     (nil ++ thread nodes (open_scope (map p_name ps) c') b)
     (fun G f' => erase_fun f' = erase_fun (FunDef ps b ty l) /\
                  Forall (addressed G) (fun_nodes c' f')) m).
  { rewrite declare_app. eapply gn_bind.
    - apply gn_params; [apply agrees_calm | discriminate].
    - apply step_declare.
    - intros a. change (declare_names (map p_name ps) c1) with (open_scope (map p_name ps) c').
      eapply gn_map; [apply gn_stmts; auto; intros ?; reflexivity|].
      cbn [erase_fun fun_nodes]. intros GG b' (E & A) _. rewrite E. split; auto.
      constructor; auto. exact I. }
  specialize (good_block _ _ _ _ _ _ _ _ _ _ Hm _ _ Ha1). unfold rbind, rfinally. cbn [app].
  change (flat_map mention ((c', NFun (FunDef ps b ty l)) :: ?x))
    with (flat_map mention x).
  destruct (begin_scope (set_function_type t s)) as [[] s1|e s1|w].
  - destruct (m s1) as [f' s2|e s2|w].
    + intros (Ha2 & HQ). split; [eapply agrees_function_back; eauto|].
      intros GG P. destruct (HQ GG P) as ((F & E & A) & ND & D). split; auto.
      constructor; auto. unfold fine, allowed; cbn. unfold depth_ok in D. tauto.
    + rewrite faulty_cons. cbn [blames]. intros [[H|H]|H]; auto.
    + rewrite deep_cons. cbn [depth_rule]. unfold depth_ok. intros [H|H]; auto.
  - rewrite faulty_cons. cbn [blames]. intros [[H|H]|H]; auto.
  - rewrite deep_cons. cbn [depth_rule]. unfold depth_ok. intros [H|H]; auto.
Qed.

(** ** Statements *)
Lemma block_case : forall b, Forall Ps b -> Ps (SBlock b).
Proof.
  intros b Hb ft bs c HC. cbn [declared]. rewrite declare_none.
  unfold good_nodes. cbn [resolve_statement nodes].
  eapply good_conv.
  - apply good_block. eapply gn_map with
      (Q2 := fun G st' => erase st' = erase (SBlock b) /\ Forall (addressed G) (nodes c st'));
      [apply gn_stmts; auto; apply agrees_calm|].
    cbn [erase nodes]. intros G b' (E & H). rewrite E. split; auto. constructor; auto. exact I.
  - reflexivity.
  - reflexivity.
  - cbn beta. intros e. rewrite faulty_cons. cbn [blames]. tauto.
  - rewrite deep_cons. cbn [depth_rule]. unfold depth_ok. tauto.
  - cbn beta. intros G st' ((F & H) & ND & D). split; auto.
    constructor; auto. unfold fine, allowed; cbn. unfold depth_ok in D. tauto.
Qed.

Lemma gn_define_node : forall n x l ft bs c, calm c ->
  mention (c, n) = here c x -> fine (c, n) ->
  good_nodes ft bs c (declare_names [x] c) [x] [(c, n)] (fun _ _ => True) (define x l).
Proof.
  intros n x l ft bs c HC M F. eapply good_conv; [apply good_define; auto| |reflexivity| | |];
    cbn beta; try tauto.
  - cbn [flat_map]. rewrite M. now rewrite app_nil_r.
  - intros. split; auto.
Qed.
Lemma fun_stmt_case : forall x f, Pf f -> Ps (SFun (NamedFun x f)).
Proof.
  intros x f Hf ft bs c HC. cbn [declared resolve_statement].
  change (nodes c (SFun (NamedFun x f))) with
    ([(c, NStmt (SFun (NamedFun x f)))] ++ fun_nodes (in_function InFunction (declare_names [x] c)) f).
  change [x] with ([x] ++ nil) at 2.
  eapply gn_bind; [apply gn_define_node; auto| apply step_declare | intros []].
  - unfold fine, allowed; cbn. tauto.
  - eapply gn_map; [apply (Hf RPlain)|]. cbn [erase nodes fun_of].
    intros G f' (E & A) _. rewrite E. split; auto. constructor; auto. exact I.
Qed.
Lemma var_case : forall x i e l, Pe e -> Ps (SVar x i e l).
Proof.
  intros x i e l He ft bs c HC. cbn [declared resolve_statement].
  change (nodes c (SVar x i e l)) with
    ([(c, NStmt (SVar x i e l))] ++ expr_nodes (initialising x c) e).
  change [x] with ([x] ++ nil).
  eapply gn_bind with (Q1 := fun G i => addressed G (c, NStmt (SVar x i e l))).
  - eapply good_conv; [apply good_declare; auto| |reflexivity| | |]; cbn beta; try tauto.
    + cbn. now rewrite app_nil_r.
    + intros G a H. split; [|exact H]. constructor; auto. unfold fine, allowed; cbn; tauto.
  - unfold step, initialising. destruct (c_locals c); cbn; auto.
  - intros k. rewrite <- (app_nil_r (expr_nodes _ e)).
    eapply gn_seq; [apply He | intros e'].
    change (@nil string) with (@nil string ++ nil).
    change (@nil (ctx * node)) with (@nil (ctx * node) ++ nil).
    eapply gn_map with (Q1 := fun _ _ => True).
    + eapply good_conv; [apply good_define_declared; auto| | | | |]; cbn; auto; tauto.
    + cbn [erase nodes]. intros G [] _ (E & A) H. rewrite E. split; auto.
Qed.
Lemma return_case : forall e l, Pe e -> Ps (SReturn e l).
Proof.
  intros e l He ft bs c HC. cbn [declared resolve_statement]. rewrite declare_none.
  change (nodes c (SReturn e l)) with ([(c, NStmt (SReturn e l))] ++ expr_nodes c e).
  eapply gn_seq with (Q1 := fun _ _ => True).
  - intros G s Ha. unfold check_return, rbind, rget.
    assert (F := ag_fun _ _ _ _ _ Ha). rewrite (ag_ft _ _ _ _ _ Ha).
    assert (FN : c_fun c <> AtTop -> (c_fun c = InInit -> e = ENil) ->
                 fine (c, NStmt (SReturn e l))).
    { intros. unfold fine, allowed; cbn; tauto. }
    destruct ft; cbn in *.
    + left. constructor. left. auto.
    + split; auto. intros. split; auto. constructor; auto. apply FN; rewrite F; discriminate.
    + destruct (is_nil_literal e) eqn:N; cbn.
      * split; auto. intros. split; auto. constructor; auto. apply FN; [rewrite F; discriminate|].
        intros _. destruct e; try discriminate. reflexivity.
      * left. constructor. right. repeat split; auto. intros ->. discriminate.
    + split; auto. intros. split; auto. constructor; auto. apply FN; rewrite F; discriminate.
  - intros []. eapply gn_map; [apply He|]. cbn [erase nodes]. intros G e' (E & A) _.
    rewrite E. split; auto. constructor; auto. exact I.
Qed.

Lemma stmt_cases :
  (forall l, Ps (SBreak l)) /\ (forall l, Ps (SContinue l)) /\
  (forall e, Pe e -> Ps (SExpression e)) /\
  (forall e, Pe e -> Ps (SPrint e)) /\
  (forall c t e, Pe c -> Ps t -> Popt Ps e -> Ps (SIf c t e)) /\
  (forall c b, Pe c -> Ps b -> Ps (SWhile c b)) /\
  (forall c b i, Pe c -> Ps b -> Pe i -> Ps (SWhileIncrement c b i)).
Proof.
  repeat apply conj; intros; intros ft bs cx HC; cbn [resolve_statement nodes declared];
    rewrite ?declare_none; (apply gn_node_first; [|exact I]).
  - apply gn_ret. intros; ends.
  - apply gn_ret. intros; ends.
  - seqs. ends.
  - seqs. ends.
  - eapply gn_seq; [apply H | intros c'].
    rewrite declare_app.
    eapply gn_bind; [apply H0; auto | apply step_declare | intros t'].
    eapply gn_map with (Q1 := fun G o =>
       option_map erase o = option_map erase e /\
       Forall (addressed G) (match o with
                             | Some o => nodes (declare_names (declared t) cx) o
                             | None => nil end)).
    + destruct e as [e|]; cbn [ropt].
      * eapply gn_map; [apply H1; now apply calm_declare|]. intros G e' (E & A).
        cbn. now rewrite E.
      * rewrite declare_none. apply gn_ret. cbn. auto.
    + intros G o (E & A). cbn [erase nodes]. intros (E1 & A1) (E2 & A2).
      rewrite E, E1, E2. split; auto.
      rewrite Forall_cons_iff', !Forall_app. split; [exact I|]. split; auto. split; auto.
      rewrite (declared_same t' t) by auto. destruct o; auto.
  - eapply gn_seq; [apply H | intros c'].
    eapply gn_map; [apply H0; auto|]. intros G b'. cbn [erase nodes]. ends.
  - eapply gn_seq; [apply H | intros c'].
    rewrite <- (app_nil_r (declared b)).
    replace (declare_names (declared b ++ nil) cx) with (declare_names (declared b) cx)
      by (now rewrite app_nil_r).
    eapply gn_bind; [apply H0; auto | apply step_declare | intros b'].
    eapply gn_map; [apply H1|]. intros G i' (E & A) (E1 & A1) (E2 & A2).
    cbn [erase nodes]. rewrite E, E1, E2. split; auto.
    rewrite Forall_cons_iff', !Forall_app. split; [exact I|]. split; auto. split; auto.
    now rewrite (declared_same b' b) by auto.
Qed.

(** ** Classes *)
Lemma gn_methods : forall ms, Forall (Pn Pf) ms -> forall ft bs c,
  good_nodes ft bs c c nil
    (flat_map (fun m => match m with
        | NamedFun n f => fun_nodes (in_function (method_ctx n) c) f end) ms)
    (fun G ms' =>
       map (fun m => match m with NamedFun n f => NamedFun n (erase_fun f) end) ms' =
       map (fun m => match m with NamedFun n f => NamedFun n (erase_fun f) end) ms /\
       Forall (addressed G) (flat_map (fun m => match m with
        | NamedFun n f => fun_nodes (in_function (method_ctx n) c) f end) ms'))
    (rmap (fun m => match m with
                    | NamedFun n f => rlet f' <- resolve_function f (method_type n) ;;
                                      rret (NamedFun n f')
                    end) ms).
Proof.
  induction 1 as [|[n f] r Hf Hr IH]; intros ft bs c.
  - apply gn_ret. cbn. auto.
  - cbn [flat_map rmap].
    assert (ET : fun_of (method_type n) = method_ctx n).
    { unfold method_type, method_ctx. destruct (String.eqb n "init"); reflexivity. }
    eapply gn_seq with (Q1 := fun G m' =>
        map (fun m => match m with NamedFun n f => NamedFun n (erase_fun f) end) [m'] =
        map (fun m => match m with NamedFun n f => NamedFun n (erase_fun f) end) [NamedFun n f] /\
        Forall (addressed G) (match m' with
          NamedFun n f => fun_nodes (in_function (method_ctx n) c) f end)); [|intros m'].
    + eapply gn_map; [rewrite <- ET; apply (Hf (method_type n))|].
      cbn beta. rewrite ET. intros G f' (E & A). cbn. now rewrite E.
    + eapply gn_map; [apply IH|]. intros G r' (E2 & A2) (E1 & A1). destruct m' as [n' f'].
      cbn [map flat_map] in *. injection E1 as -> E1. rewrite E1, E2, Forall_app. auto.
Qed.

Lemma scope_error_one : forall x e, ~ scope_error [x] e.
Proof.
  intros x e (y & l & [((a & b & d & E) & _)|(T & _)]).
  - apply (f_equal (@List.length string)) in E. rewrite app_length in E. cbn in E.
    rewrite app_length in E. cbn in E. lia.
  - unfold too_many, scope_limit in T. cbn in T. lia.
Qed.

(** The body of a class without superclass. *)
Definition this_block (l : source_loc) (ms : list named_fun) : R (list named_fun) :=
  rdo begin_scope ;;
  rfinally (rdo define "this" l ;;
            rmap (fun m => match m with
                           | NamedFun n f => rlet f' <- resolve_function f (method_type n) ;;
                                             rret (NamedFun n f')
                           end) ms) end_scope.
Definition method_nodes (c : ctx) (ms : list named_fun) : list (ctx * node) :=
  flat_map (fun m => match m with
        | NamedFun n f => fun_nodes (in_function (method_ctx n) c) f end) ms.
Definition same_methods (G : list string) (c : ctx) (ms ms' : list named_fun) : Prop :=
  map (fun m => match m with NamedFun n f => NamedFun n (erase_fun f) end) ms' =
  map (fun m => match m with NamedFun n f => NamedFun n (erase_fun f) end) ms /\
  Forall (addressed G) (method_nodes c ms').

Lemma good_this_block : forall l ms, Forall (Pn Pf) ms -> forall ft bs c,
  good ft bs c c (flat_map mention (method_nodes (open_scope ["this"] c) ms)) nil
    (faulty (method_nodes (open_scope ["this"] c) ms))
    (deep (method_nodes (open_scope ["this"] c) ms) \/ ~ depth_ok c)
    (fun G ms' => Forall fine (method_nodes (open_scope ["this"] c) ms) /\
                  same_methods G (open_scope ["this"] c) ms ms' /\ depth_ok c)
    (this_block l ms).
Proof.
  intros l ms Hms ft bs c. unfold this_block. eapply good_conv.
  - apply good_block with (xs := ["this"]).
    change ["this"] with (["this"] ++ nil) at 1. rewrite declare_app.
    change ["this"] with (["this"] ++ nil) at 2.
    eapply good_bind; [apply good_define; apply agrees_calm|apply step_declare|intros []].
    change (declare_names ["this"] (open_scope nil c)) with (open_scope ["this"] c).
    rewrite declare_none.
    eapply good_conv; [apply gn_methods; auto|reflexivity|reflexivity|intros e H; exact H|intros H; exact H|].
    intros G ms' H _. exact H.
  - reflexivity.
  - reflexivity.
  - cbn beta. intros e [[[]|H]|H]; auto. now apply scope_error_one in H.
  - intros [[[]|H]|H]; auto.
  - cbn beta. intros G ms' ((F & E & A) & _ & D). repeat split; auto.
Qed.
Definition super_block (l : source_loc) (ms : list named_fun) : R (list named_fun) :=
  rdo begin_scope ;; rfinally (rdo define "super" l ;; this_block l ms) end_scope.
Lemma good_super_block : forall l ms, Forall (Pn Pf) ms -> forall ft bs c,
  let c2 := open_scope ["this"] (open_scope ["super"] c) in
  good ft bs c c (flat_map mention (method_nodes c2 ms)) nil
    (faulty (method_nodes c2 ms))
    (deep (method_nodes c2 ms) \/ ~ depth_ok (open_scope ["super"] c))
    (fun G ms' => Forall fine (method_nodes c2 ms) /\
                  same_methods G c2 ms ms' /\ depth_ok (open_scope ["super"] c))
    (super_block l ms).
Proof.
  intros l ms Hms ft bs c c2. unfold super_block. eapply good_conv.
  - apply good_block with (xs := ["super"]).
    change ["super"] with (["super"] ++ nil) at 1. rewrite declare_app.
    change ["super"] with (["super"] ++ nil) at 2.
    eapply good_bind; [apply good_define; apply agrees_calm|apply step_declare|intros []].
    change (declare_names ["super"] (open_scope nil c)) with (open_scope ["super"] c).
    rewrite declare_none.
    eapply good_conv; [apply good_this_block; auto|reflexivity|reflexivity|intros e H; exact H|intros H; exact H|].
    intros G ms' H _. exact H.
  - reflexivity.
  - reflexivity.
  - cbn beta. intros e [[[]|H]|H]; auto. now apply scope_error_one in H.
  - intros [[[]|[H|H]]|H]; auto. right. intros D. apply H. unfold depth_ok in *. cbn in D. lia.
  - cbn beta. intros G ms' ((F & E & A) & _ & D). repeat split; auto; apply E.
Qed.

Lemma class_none : forall x ms l s,
  resolve_class (ClassDef x None ms l) s =
  (rdo define x l ;; rlet ms' <- this_block l ms ;; rret (ClassDef x None ms' l)) s.
Proof.
  intros. cbn [resolve_class ropt check_self_inheritance].
  unfold this_block, rbind, rfinally, rret.
  destruct (define x l s) as [[] s1|e s1|w]; auto.
  destruct (begin_scope s1) as [[] s2|e s2|w]; auto.
Qed.
Lemma class_some : forall x e ms l s,
  resolve_class (ClassDef x (Some e) ms l) s =
  (rdo define x l ;; rdo check_self_inheritance x (Some e) ;;
   rlet e' <- resolve_expression e ;;
   rlet ms' <- super_block l ms ;; rret (ClassDef x (Some e') ms' l)) s.
Proof.
  intros. cbn [resolve_class ropt]. unfold super_block, this_block, rbind, rfinally.
  destruct (define x l s) as [[] s1|err s1|w]; auto.
  destruct (check_self_inheritance x (Some e) s1) as [[] s2|err s2|w]; auto.
  destruct (resolve_expression e s2) as [e' s3|err s3|w]; auto.
  destruct (begin_scope s3) as [[] s4|err s4|w]; auto.
  - destruct (define "super" l s4) as [[] s5|err s5|w]; auto.
    unfold rret. cbn beta iota.
    destruct (begin_scope s5) as [[] s6|err s6|w] eqn:EB; auto.
    + destruct (define "this" l s6) as [[] s7|err s7|w]; auto.
      match goal with |- context[rmap ?f ms s7] => destruct (rmap f ms s7) as [ms' s8|err s8|w] end; auto.
    + unfold begin_scope in EB. destruct (_ <=? _)%N; discriminate.
Qed.

Lemma agrees_class : forall t ft G bs c s, agrees ft G bs c s ->
  agrees ft G bs (in_class (class_of t) c) (set_class_type t s).
Proof. intros t ft G bs c s [Hs F1 F2 K Hd]. constructor; cbn; auto. Qed.
Lemma agrees_class_back : forall k ft G G' bs c xs s s0, agrees ft G' bs c s0 ->
  agrees ft G bs (declare_names xs (in_class k c)) s ->
  agrees ft G bs (declare_names xs c) (set_class_type (class_type s0) s).
Proof.
  intros k ft G G' bs c xs s s0 [_ _ F0 K0 _] [Hs F1 F2 K Hd].
  unfold declare_names in *. cbn in *.
  destruct (c_locals c); constructor; cbn in *; auto.
Qed.

Lemma class_good : forall x super ms l, Popt Pe super -> Forall (Pn Pf) ms ->
  forall ft bs c, calm c ->
  let k := match super with Some _ => Subclass | None => PlainClass end in
  let c1 := in_class (class_of k) c in
  let ns := nodes c (SClass (ClassDef x super ms l)) in
  good ft bs c1 (declare_names [x] c1) (flat_map mention ns) [x] (faulty ns) (deep ns)
     (fun G d' => Forall fine ns /\
        erase (SClass d') = erase (SClass (ClassDef x super ms l)) /\
        Forall (addressed G) (nodes c (SClass d')))
     (resolve_class (ClassDef x super ms l)).
Proof.
  intros x super ms l He Hms ft bs c HC k c1 ns.
  assert (HC1 : calm c1) by exact HC.
  assert (Ec : in_class (class_of k) (declare_names [x] c) = declare_names [x] c1).
  { unfold c1, declare_names, in_class. destruct (c_locals c); reflexivity. }
  assert (Eh : here c1 x = here c x) by reflexivity.
  assert (Ed : length (c_locals (declare_names [x] c1)) = length (c_locals c)).
  { rewrite <- Ec. unfold declare_names. destruct (c_locals c); reflexivity. }
  destruct super as [e|].
  - set (c2 := declare_names [x] c1) in *.
    set (c3 := open_scope ["this"] (open_scope ["super"] c2)).
    assert (En : ns = (c, NStmt (SClass (ClassDef x (Some e) ms l))) ::
                      expr_nodes c2 e ++ method_nodes c3 ms).
    { unfold ns. cbn [nodes class_nodes]. change InSubclass with (class_of k). rewrite Ec. reflexivity. }
    intros G s Ha. rewrite class_some. revert G s Ha.
    match goal with |- forall G s, agrees _ _ _ _ _ -> match ?m s with _ => _ end =>
      change (good ft bs c1 c2 (flat_map mention ns) [x] (faulty ns) (deep ns)
       (fun G d' => Forall fine ns /\
        erase (SClass d') = erase (SClass (ClassDef x (Some e) ms l)) /\
        Forall (addressed G) (nodes c (SClass d'))) m) end.
    eapply good_conv with (Q := fun G d' => exists e' ms', d' = ClassDef x (Some e') ms' l /\
          (Forall fine (method_nodes c3 ms) /\ same_methods G c3 ms ms' /\
             depth_ok (open_scope ["super"] c2)) /\
          (Forall fine (expr_nodes c2 e) /\ erase_expr e' = erase_expr e /\
             Forall (addressed G) (expr_nodes c2 e')) /\
          inheritance_rule (c, NStmt (SClass (ClassDef x (Some e) ms l)))).
    + eapply good_bind; [apply good_define; auto|apply step_declare|intros []].
      eapply good_bind with (D1 := False) (us1 := nil) (xs1 := nil)
        (B1 := fun err => blames err (c, NStmt (SClass (ClassDef x (Some e) ms l))))
        (Q1 := fun G _ => inheritance_rule (c, NStmt (SClass (ClassDef x (Some e) ms l))));
        [|apply step_refl|intros []].
      * intros G2 s2 Ha2. unfold check_self_inheritance.
        destruct e; try (cbn; split; auto; fail).
        destruct (String.eqb_spec x0 x) as [->|N]; cbn; auto.
        
      * eapply good_bind; [apply He|apply step_refl|intros e'].
        eapply good_map; [apply good_super_block; auto|].
        intros G ms' H H1 H2 _.
        exists e', ms'. auto.
    + rewrite En. cbn [flat_map]. rewrite flat_map_app. reflexivity.
    + reflexivity.
    + cbn beta. intros err H. rewrite En, faulty_cons, faulty_app. tauto.
    + rewrite En, deep_cons, deep_app. cbn [depth_rule]. fold c2. unfold depth_ok. cbn [open_scope c_locals length].
      rewrite <- Ed. intros [[]|[[]|[H|[H|H]]]]; auto. left. intros D. apply H. lia.
    + cbn beta. intros G d' (e' & ms' & -> & (F1 & (E1 & A1) & D) & (F2 & E2 & A2) & HI).
      split; [|split].
      * rewrite En. constructor; [|apply Forall_app; auto].
        unfold fine, allowed. cbn [return_rule this_rule redeclaration_rule initializer_rule depth_rule].
        unfold depth_ok in D. cbn [open_scope c_locals length] in D. rewrite Ed in D.
        repeat split; auto. lia.
      * cbn. rewrite E1, E2. reflexivity.
      * cbn [nodes class_nodes]. change InSubclass with (class_of k). rewrite Ec. fold c2.
        constructor; [exact I|]. apply Forall_app. split; auto.
  - set (c2 := declare_names [x] c1) in *.
    set (c3 := open_scope ["this"] c2).
    assert (En : ns = (c, NStmt (SClass (ClassDef x None ms l))) :: method_nodes c3 ms).
    { unfold ns. cbn [nodes class_nodes]. change InClass with (class_of k). rewrite Ec. reflexivity. }
    intros G s Ha. rewrite class_none. revert G s Ha.
    match goal with |- forall G s, agrees _ _ _ _ _ -> match ?m s with _ => _ end =>
      change (good ft bs c1 c2 (flat_map mention ns) [x] (faulty ns) (deep ns)
       (fun G d' => Forall fine ns /\
        erase (SClass d') = erase (SClass (ClassDef x None ms l)) /\
        Forall (addressed G) (nodes c (SClass d'))) m) end.
    eapply good_conv with (Q := fun G d' => exists ms', d' = ClassDef x None ms' l /\
          (Forall fine (method_nodes c3 ms) /\ same_methods G c3 ms ms' /\ depth_ok c2)).
    + eapply good_bind; [apply good_define; auto|apply step_declare|intros []].
      eapply good_map; [apply good_this_block; auto|].
      intros G ms' H _.
      exists ms'. auto.
    + rewrite En. cbn [flat_map]. reflexivity.
    + reflexivity.
    + cbn beta. intros err H. rewrite En, faulty_cons. tauto.
    + rewrite En, deep_cons. cbn [depth_rule]. fold c2. unfold depth_ok.
      rewrite <- Ed. tauto.
    + cbn beta. intros G d' (ms' & -> & F1 & (E1 & A1) & D).
      split; [|split].
      * rewrite En. constructor; auto.
        unfold fine, allowed. cbn [return_rule this_rule redeclaration_rule initializer_rule
          inheritance_rule depth_rule].
        unfold depth_ok in D. rewrite Ed in D.
        repeat split; auto.
      * cbn. rewrite E1. reflexivity.
      * cbn [nodes class_nodes]. change InClass with (class_of k). rewrite Ec. fold c2.
        constructor; [exact I|]. auto.
Qed.

Lemma class_case : forall x super ms l, Popt Pe super -> Forall (Pn Pf) ms ->
  Pc (ClassDef x super ms l).
Proof.
  intros x super ms l He Hms ft bs c HC. unfold good_nodes.
  cbn [resolve_statement declared]. intros G s Ha.
  assert (H := class_good x super ms l He Hms ft bs c HC _ _
                 (agrees_class (match super with Some _ => Subclass | None => PlainClass end) _ _ _ _ _ Ha)).
  unfold rbind, rget, rmodify, rfinally.
  replace (match super with Some _ => Subclass | None => PlainClass end)
    with (match ClassDef x super ms l with
          | ClassDef _ (Some _) _ _ => Subclass
          | ClassDef _ None _ _ => PlainClass end) in H at 1 by (destruct super; reflexivity).
  destruct (resolve_class (ClassDef x super ms l) _) as [d' s1|e s1|w]; auto.
  unfold rret. destruct H as [H1 H2].
  split; auto. eapply agrees_class_back; eauto.
Qed.

Theorem resolver_meets_spec :
  (forall st, Ps st) /\ (forall e, Pe e) /\ (forall d, Pc d) /\ (forall f, Pf f).
Proof.
  destruct expr_cases as (X1 & X2 & X3 & X4 & X5 & X6 & X7 & X8 & X9 & X10 & X11 & X12 & X13 & X14 & X15 & X16).
  destruct stmt_cases as (S1 & S2 & S3 & S4 & S5 & S6 & S7).
  apply tree_ind; auto.
  - apply block_case.
  - apply fun_stmt_case.
  - apply return_case.
  - apply var_case.
  - apply gn_assign.
  - apply gn_super.
  - apply gn_variable.
  - apply class_case.
  - apply fun_case.
Qed.
