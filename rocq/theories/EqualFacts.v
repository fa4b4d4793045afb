(** [==] on trees is the equality up to the order of map entries. *)
From Coq Require Import Floats.SpecFloat Permutation ZArith.
From Verif Require Import Base F64 Token Ast AstInd SpecTree Equal SpecEqual.

(** ** Leaves *)
Lemma loc_eq l l' : loc_eqb l l' = true <-> l = l'.
Proof.
  unfold loc_eqb. rewrite andb_true_iff, !N.eqb_eq. destruct l, l'; cbn. split; [intros [-> ->]|intros [= -> ->]]; auto.
Qed.
Lemma slot_eq s s' : slot_eqb s s' = true <-> s = s'.
Proof. unfold slot_eqb. rewrite N.eqb_eq. destruct s, s'; cbn. split; congruence. Qed.
Lemma var_eq l l' : var_eqb l l' = true <-> l = l'.
Proof.
  unfold var_eqb. rewrite andb_true_iff, !N.eqb_eq. destruct l, l'; cbn. split; [intros [-> ->]|intros [= -> ->]]; auto.
Qed.
Lemma kind_eq k k' : kind_eqb k k' = true <-> k = k'.
Proof. destruct k, k'; cbn; split; congruence. Qed.
Lemma unary_eq k k' : unary_eqb k k' = true <-> k = k'.
Proof. destruct k, k'; cbn; split; congruence. Qed.
Lemma binary_eq k k' : binary_eqb k k' = true <-> k = k'.
Proof. destruct k, k'; cbn; split; congruence. Qed.
Lemma logical_eq k k' : logical_eqb k k' = true <-> k = k'.
Proof. destruct k, k'; cbn; split; congruence. Qed.
Lemma param_eq p p' : param_eqb p p' = true <-> p = p'.
Proof.
  unfold param_eqb. rewrite andb_true_iff, String.eqb_eq, loc_eq. destruct p, p'; cbn.
  split; [intros [-> ->]|intros [= -> ->]]; auto.
Qed.
Lemma bool_eq b b' : Bool.eqb b b' = true <-> b = b'.
Proof. apply Bool.eqb_true_iff. Qed.
Lemma number_eq x y : ordinary x -> ordinary y -> (SFeqb x y = true <-> x = y).
Proof.
  intros [A B] [C D]. unfold SFeqb. split.
  - destruct x as [s|s| |s m e], y as [s'|s'| |s' m' e']; cbn; try congruence; try (destruct s, s'; congruence).
    destruct s, s'; cbn; try congruence; destruct (Z.compare_spec e e') as [->|?|?]; try discriminate;
      change (Pos.compare_cont Eq m m') with (m ?= m')%positive;
      destruct (Pos.compare_spec m m') as [->|?|?]; cbn; try discriminate; auto.
  - intros <-. destruct x as [s|s| |s m e]; cbn; try congruence; try (now destruct s).
    rewrite Z.compare_refl. change (Pos.compare_cont Eq m m) with (m ?= m)%positive. rewrite Pos.compare_refl. now destruct s.
Qed.
Lemma list_eq {A} (f : A -> A -> bool) : (forall a b, f a b = true <-> a = b) -> forall l l', list_eqb f l l' = true <-> l = l'.
Proof.
  intros H. induction l as [|a l IH]; intros [|b l']; cbn; try (split; congruence).
  rewrite andb_true_iff, H, IH. split; [intros [-> ->]|intros [= -> ->]]; auto.
Qed.
Lemma option_eq {A} (f : A -> A -> bool) : (forall a b, f a b = true <-> a = b) -> forall o o', option_eqb f o o' = true <-> o = o'.
Proof.
  intros H [a|] [b|]; cbn; try (split; congruence). rewrite H. split; congruence.
Qed.

(** ** Lists, options and maps *)
Lemma list_iff {A} (f : A -> A -> bool) (R : A -> A -> Prop) (G : A -> Prop) l :
  Forall (fun a => forall a', G a -> G a' -> (f a a' = true <-> R a a')) l ->
  forall l', Forall G l -> Forall G l' -> (list_eqb f l l' = true <-> Forall2 R l l').
Proof.
  induction 1 as [|a l H HL IH]; intros [|a' l'] A1 A2; cbn; try (split; [discriminate|inversion 1]).
  - split; auto.
  - inversion A1; inversion A2; subst. rewrite andb_true_iff, H, IH by assumption.
    split; [intros []; constructor; auto|inversion 1; auto].
Qed.
Lemma option_iff {A} (f : A -> A -> bool) (R : A -> A -> Prop) (G : A -> Prop) o o' :
  match o with Some a => forall a', G a -> G a' -> (f a a' = true <-> R a a') | None => True end ->
  match o with Some a => G a | None => True end -> match o' with Some a => G a | None => True end ->
  (option_eqb f o o' = true <-> same_option R o o').
Proof.
  destruct o, o'; cbn; intros H A1 A2; try (split; [discriminate|inversion 1]).
  - rewrite H by assumption. split; [now constructor|now inversion 1].
  - split; auto. constructor.
Qed.
Lemma get_in {V} (m : list (string * V)) k v : map_get m k = Some v -> In (k, v) m.
Proof.
  induction m as [|[k' v'] m IH]; cbn; [discriminate|]. destruct (String.eqb_spec k' k) as [->|]; [intros [= ->]|]; auto.
Qed.
Lemma in_get {V} (m : list (string * V)) k v : NoDup (map fst m) -> In (k, v) m -> map_get m k = Some v.
Proof.
  induction m as [|[k' v'] m IH]; cbn; [easy|]. inversion 1 as [|? ? N D]; subst. intros [[= -> ->]|I].
  - now rewrite String.eqb_refl.
  - destruct (String.eqb_spec k' k) as [->|]; auto. destruct N. now apply (in_map fst) in I.
Qed.
Lemma map_iff (f : expr -> expr -> bool) (R : expr -> expr -> Prop) (G : expr -> Prop) m m' :
  Forall (fun kv => forall e', G (snd kv) -> G e' -> (f (snd kv) e' = true <-> R (snd kv) e')) m ->
  Forall (fun kv => G (snd kv)) m -> Forall (fun kv => G (snd kv)) m' -> NoDup (map fst m) -> NoDup (map fst m') ->
  (map_eqb f m m' = true <-> exists m1, Forall2 (same_entry R) m m1 /\ Permutation m1 m').
Proof.
  intros H A1 A2 D1 D2. rewrite Forall_forall in H, A1, A2. unfold map_eqb. rewrite andb_true_iff, Nat.eqb_eq, forallb_forall. split.
  - intros [L E].
    assert (X : exists m1, Forall2 (same_entry R) m m1 /\ (forall x, In x m1 -> In x m') /\ map fst m1 = map fst m).
    { assert (Y : forall n, (forall x, In x n -> In x m) ->
        exists m1, Forall2 (same_entry R) n m1 /\ (forall x, In x m1 -> In x m') /\ map fst m1 = map fst n).
      { induction n as [|[k v] n IH]; intros I.
        - exists nil. repeat split; auto. easy.
        - destruct IH as (m1 & F & J & K); [intros x X; apply I; now right|].
          pose proof (I (k, v) (or_introl eq_refl)) as I0. pose proof (E _ I0) as E0. cbn in E0.
          destruct (map_get m' k) as [v'|] eqn:Q; [|discriminate]. apply get_in in Q.
          pose proof (H _ I0 v' (A1 _ I0) (A2 _ Q)) as HF. cbn in HF.
          exists ((k, v') :: m1). repeat split.
          + constructor; auto. constructor. now apply HF.
          + intros x [<-|X]; auto.
          + cbn. now rewrite K. }
      now apply Y. }
    destruct X as (m1 & F & J & K). exists m1. split; auto.
    assert (N1 : NoDup m1) by (apply NoDup_map_inv with (f := fst); now rewrite K).
    apply NoDup_Permutation_bis; auto. rewrite <- L. rewrite <- (map_length fst m), <- K, map_length. auto.
  - intros (m1 & F & P). split.
    { rewrite <- (Permutation_length P). clear - F. induction F; cbn; congruence. }
    intros [k v] I.
    assert (X : exists v', In (k, v') m' /\ R v v').
    { assert (Y : exists v', In (k, v') m1 /\ R v v').
      { clear - F I. induction F as [|a b l l' S F IH]; [easy|]. destruct I as [->|I].
        - inversion S; subst. eexists. split; [now left|assumption].
        - destruct (IH I) as (v' & I' & R'). exists v'. split; [now right|assumption]. }
      destruct Y as (v' & I' & R'). exists v'. split; auto. now apply (Permutation_in _ P). }
    destruct X as (v' & I' & R'). rewrite (in_get _ _ _ D2 I').
    pose proof (H _ I v' (A1 _ I) (A2 _ I')) as HF. cbn in HF. now apply HF.
Qed.

(** ** Trees *)
Notation good := (Forall ordinary_part).
Lemma good_flat {A} (g : A -> list part) l : good (flat_map g l) -> Forall (fun a => good (g a)) l.
Proof. induction l as [|a l IH]; cbn; [constructor|]. rewrite Forall_app. intros []. constructor; auto. Qed.
Ltac good := repeat match goal with
  | H : good (_ :: _) |- _ => apply Forall_cons_iff in H; destruct H
  | H : good (_ ++ _) |- _ => apply Forall_app in H; destruct H
  | H : good (flat_map _ _) |- _ => apply good_flat in H
  end.
Ltac leaves := rewrite ?andb_true_iff, ?String.eqb_eq, ?loc_eq, ?slot_eq, ?var_eq, ?kind_eq, ?unary_eq, ?binary_eq, ?logical_eq, ?bool_eq.
Ltac done := split; [intros; repeat match goal with H : _ /\ _ |- _ => destruct H end; subst; try constructor; auto
                    |inversion 1; subst; auto 10].

Lemma trees :
  (forall st st', good (parts st) -> good (parts st') -> (stmt_eqb st st' = true <-> same_stmt st st')) /\
  (forall e e', good (expr_parts e) -> good (expr_parts e') -> (expr_eqb e e' = true <-> same_expr e e')) /\
  (forall c c', good (class_parts c) -> good (class_parts c') -> (class_eqb c c' = true <-> same_class c c')) /\
  (forall f f', good (fun_parts f) -> good (fun_parts f') -> (fun_eqb f f' = true <-> same_fun f f')).
Proof.
  apply (tree_ind
    (fun st => forall st', good (parts st) -> good (parts st') -> (stmt_eqb st st' = true <-> same_stmt st st'))
    (fun e => forall e', good (expr_parts e) -> good (expr_parts e') -> (expr_eqb e e' = true <-> same_expr e e'))
    (fun c => forall c', good (class_parts c) -> good (class_parts c') -> (class_eqb c c' = true <-> same_class c c'))
    (fun f => forall f', good (fun_parts f) -> good (fun_parts f') -> (fun_eqb f f' = true <-> same_fun f f')));
  intros;
  match goal with
  | |- stmt_eqb _ ?x = true <-> _ => destruct x
  | |- expr_eqb _ ?x = true <-> _ => destruct x
  | |- class_eqb _ ?x = true <-> _ => destruct x
  | |- fun_eqb _ ?x = true <-> _ => destruct x
  end;
  try (cbn; split; [discriminate|inversion 1]); try match goal with f : named_fun |- _ => destruct f; cbn; try (split; [discriminate|inversion 1]) end;
  cbn [parts expr_parts class_parts fun_parts] in *; good; cbn [stmt_eqb expr_eqb class_eqb fun_eqb]; leaves;
  repeat match goal with IH : forall x, _ -> _ -> (?f ?a x = true <-> _) |- context [?f ?a ?b = true] => rewrite (IH b) by assumption end;
  try solve [done].

  - (* block *)
    rewrite (list_iff stmt_eqb same_stmt (fun st => good (parts st))) by assumption. done.
  - (* function *)
    split; [intros [-> F]; now repeat constructor|].
    inversion 1 as [| | | | |? ? N| | | | | |]; subst. inversion N; subst. auto.
  - (* if *)
    rewrite (option_iff stmt_eqb same_stmt (fun st => good (parts st))).
    + split; [intros [[? ?] ?]; constructor; auto|inversion 1; auto].
    + destruct e; auto.
    + destruct e; auto.
    + destruct e0; auto.
  - (* call *)
    rewrite (list_iff expr_eqb same_expr (fun e => good (expr_parts e))) by assumption. done.
  - (* array *)
    rewrite (list_iff expr_eqb same_expr (fun e => good (expr_parts e))) by assumption. done.
  - (* map *)
    assert (K : forall n : list (string * expr), Forall (fun kv => good (match kv with (_, a) => expr_parts a end)) n ->
      Forall (fun kv => good (expr_parts (snd kv))) n).
    { intros n X. refine (Forall_impl _ _ X). now intros [k e]. }
    rewrite (map_iff expr_eqb same_expr (fun e => good (expr_parts e)));
      [|assumption|now apply K|now apply K|assumption|assumption].
    split; [intros (m1 & F & P); econstructor; eassumption|inversion 1; subst; eauto].
  - (* number *)
    rewrite number_eq by assumption. split; [intros ->; constructor|now inversion 1].
  - (* class *)
    rewrite (option_iff expr_eqb same_expr (fun e => good (expr_parts e)));
      [|now destruct s|now destruct s|now destruct super].
    match goal with |- context [list_eqb ?g ms methods] =>
      rewrite (list_iff g same_named (fun n => good (match n with NamedFun _ f => fun_parts f end)) ms)
    end; [| |assumption|assumption].
    + split; [intros [[[-> ?] ?] ->]; constructor; auto|inversion 1; auto].
    + match goal with HF : Forall (Pn _) ms |- _ => refine (Forall_impl _ _ HF) end.
      intros [x f] IH [x' f'] A B. cbn in IH. rewrite andb_true_iff, String.eqb_eq, (IH f') by assumption.
      split; [intros [-> ?]; constructor; auto|inversion 1; auto].
  - (* function *)
    rewrite (list_iff stmt_eqb same_stmt (fun st => good (parts st))), (list_eq param_eqb param_eq) by assumption.
    split; [intros [[[-> ?] ->] ->]; constructor; auto|inversion 1; auto].
Qed.

Lemma program_same l l' : good (program_parts l) -> good (program_parts l') ->
  (program_eqb l l' = true <-> Forall2 same_stmt l l').
Proof.
  intros A B. apply good_flat in A, B. apply (list_iff stmt_eqb same_stmt (fun st => good (parts st))); auto.
  apply Forall_forall. intros st _. apply trees.
Qed.
Lemma expr_same e e' : good (expr_parts e) -> good (expr_parts e') -> (expr_eqb e e' = true <-> same_expr e e').
Proof. apply trees. Qed.

(** ** An equivalence *)
Lemma same_option_refl {A} (R : A -> A -> Prop) o : match o with Some a => R a a | None => True end -> same_option R o o.
Proof. destruct o; constructor; auto. Qed.
Lemma Forall2_refl {A} (R : A -> A -> Prop) l : Forall (fun a => R a a) l -> Forall2 R l l.
Proof. induction 1; constructor; auto. Qed.
Lemma same_refl : (forall st, same_stmt st st) /\ (forall e, same_expr e e) /\ (forall c, same_class c c) /\ (forall f, same_fun f f).
Proof.
  apply tree_ind; intros; try (constructor; auto; fail); try (constructor; auto; now apply Forall2_refl).
  - repeat constructor; auto.
  - constructor; auto. apply same_option_refl. destruct e; auto.
  - apply same_map with m; auto. apply Forall2_refl. refine (Forall_impl _ _ H). intros [k e] X. now constructor.
  - constructor; [apply same_option_refl; destruct s; auto|]. apply Forall2_refl. refine (Forall_impl _ _ H0).
    intros [x f] X. now constructor.
Qed.
Lemma Forall2_perm {A B} (R : A -> B -> Prop) m1 m' : Permutation m1 m' -> forall m, Forall2 R m m1 ->
  exists m2, Permutation m m2 /\ Forall2 R m2 m'.
Proof.
  induction 1 as [|x l l' P IH|x y l|l l1 l2 P1 IH1 P2 IH2]; intros m F.
  - inversion F; subst. exists nil. auto.
  - inversion F as [|a ? n ? HA HF]; subst. destruct (IH n HF) as (n2 & Q & G). exists (a :: n2). split; auto.
  - inversion F as [|a ? n ? HA HF]; subst. inversion HF as [|b ? n' ? HB HF']; subst.
    exists (b :: a :: n'). split; [apply perm_swap|]. repeat constructor; auto.
  - destruct (IH1 m F) as (n & Q & G). destruct (IH2 n G) as (n2 & Q2 & G2). exists n2. split; auto.
    now apply Permutation_trans with n.
Qed.
Lemma Forall2_flip {A} (R : A -> A -> Prop) l l' : Forall (fun a => forall b, R a b -> R b a) l -> Forall2 R l l' -> Forall2 R l' l.
Proof. intros H F. induction F; inversion H; subst; constructor; auto. Qed.
Lemma option_flip {A} (R : A -> A -> Prop) o o' : match o with Some a => forall b, R a b -> R b a | None => True end ->
  same_option R o o' -> same_option R o' o.
Proof. intros H X. inversion X; subst; constructor; auto. Qed.
Lemma same_sym : (forall st st', same_stmt st st' -> same_stmt st' st) /\ (forall e e', same_expr e e' -> same_expr e' e) /\
  (forall c c', same_class c c' -> same_class c' c) /\ (forall f f', same_fun f f' -> same_fun f' f).
Proof.
  apply (tree_ind (fun st => forall st', same_stmt st st' -> same_stmt st' st) (fun e => forall e', same_expr e e' -> same_expr e' e)
    (fun c => forall c', same_class c c' -> same_class c' c) (fun f => forall f', same_fun f f' -> same_fun f' f)); intros;
  match goal with
  | X : same_stmt _ _ |- _ => inversion X; subst; clear X
  | X : same_expr _ _ |- _ => inversion X; subst; clear X
  | X : same_class _ _ |- _ => inversion X; subst; clear X
  | X : same_fun _ _ |- _ => inversion X; subst; clear X
  end; try (constructor; auto; fail); try (constructor; auto; now apply Forall2_flip).
  - match goal with N : same_named _ _ |- _ => inversion N; subst end. repeat constructor; auto.
  - constructor; auto. apply option_flip; auto; destruct e; auto.
  - match goal with P : Permutation _ _ |- _ => apply Permutation_sym in P;
      match goal with F : Forall2 _ m ?m1 |- _ => assert (F' : Forall2 (same_entry same_expr) m1 m) end end.
    { apply Forall2_flip; auto. refine (Forall_impl _ _ H). intros [k e] X b Y. inversion Y; subst. constructor. now apply X. }
    assert (F2 : Forall2 (fun a b => same_entry same_expr b a) m m1).
    { clear - F'. induction F'; constructor; auto. }
    apply Permutation_sym in H3. destruct (Forall2_perm _ _ _ H3 m F2) as (m2 & Q & G).
    apply same_map with m2; [|now apply Permutation_sym]. clear - G. induction G; constructor; auto.
  - constructor; [apply option_flip; auto; destruct s; auto|]. apply Forall2_flip; auto. refine (Forall_impl _ _ H0).
    intros [x f] X b Y. inversion Y; subst. constructor. now apply X.
Qed.
Lemma Forall2_join {A} (R : A -> A -> Prop) l : Forall (fun a => forall b c, R a b -> R b c -> R a c) l ->
  forall l' l'', Forall2 R l l' -> Forall2 R l' l'' -> Forall2 R l l''.
Proof.
  induction 1; intros l' l'' F G; inversion F; subst; inversion G; subst; constructor; eauto.
Qed.
Lemma option_join {A} (R : A -> A -> Prop) o o' o'' :
  match o with Some a => forall b c, R a b -> R b c -> R a c | None => True end ->
  same_option R o o' -> same_option R o' o'' -> same_option R o o''.
Proof. intros H X G. inversion X; subst; inversion G; subst; constructor; eauto. Qed.
Lemma same_trans :
  (forall st st' st'', same_stmt st st' -> same_stmt st' st'' -> same_stmt st st'') /\
  (forall e e' e'', same_expr e e' -> same_expr e' e'' -> same_expr e e'') /\
  (forall c c' c'', same_class c c' -> same_class c' c'' -> same_class c c'') /\
  (forall f f' f'', same_fun f f' -> same_fun f' f'' -> same_fun f f'').
Proof.
  apply (tree_ind (fun st => forall st' st'', same_stmt st st' -> same_stmt st' st'' -> same_stmt st st'')
    (fun e => forall e' e'', same_expr e e' -> same_expr e' e'' -> same_expr e e'')
    (fun c => forall c' c'', same_class c c' -> same_class c' c'' -> same_class c c'')
    (fun f => forall f' f'', same_fun f f' -> same_fun f' f'' -> same_fun f f'')); intros;
  repeat match goal with
  | X : same_stmt ?a _ |- _ => lazymatch a with SBlock _ => idtac | _ => tryif is_var a then fail else idtac end; inversion X; subst; clear X
  | X : same_expr ?a _ |- _ => tryif is_var a then fail else (inversion X; subst; clear X)
  | X : same_class ?a _ |- _ => tryif is_var a then fail else (inversion X; subst; clear X)
  | X : same_fun ?a _ |- _ => tryif is_var a then fail else (inversion X; subst; clear X)
  end; try (constructor; eauto; fail); try (constructor; eauto; eapply Forall2_join; eauto; fail).
  - repeat match goal with N : same_named ?a _ |- _ => tryif is_var a then fail else (inversion N; subst; clear N) end. repeat constructor; eauto.
  - constructor; eauto. eapply option_join; eauto; destruct e; auto.
  - (* map *)
    match goal with P : Permutation ?m1 ?m', F : Forall2 _ ?m' ?m2, Q : Permutation ?m2 _ |- _ =>
      rename P into P1; rename F into F1; rename Q into Q1 end.
    apply Permutation_sym in P1.
    assert (F2 : exists n, Permutation m2 n /\ Forall2 (same_entry same_expr) m1 n).
    { pose proof (Forall2_perm (fun a b => same_entry same_expr b a) _ _ P1 m2) as X. destruct X as (n & A & B).
      - clear - F1. induction F1; constructor; auto.
      - exists n. split; auto. clear - B. induction B; constructor; auto. }
    destruct F2 as (n & A & B). apply same_map with n.
    + eapply Forall2_join; [|eassumption|exact B]. refine (Forall_impl _ _ H). intros [k e] X b c Y Z.
      inversion Y; subst. inversion Z; subst. constructor. eauto.
    + apply Permutation_sym in A. now apply Permutation_trans with m2.
  - constructor; [eapply option_join; eauto; destruct s; auto|]. eapply Forall2_join; eauto. refine (Forall_impl _ _ H0).
    intros [x f] X b c Y Z. inversion Y; subst. inversion Z; subst. constructor. eauto.
Qed.

(** ** Without large maps it is the identity *)
Notation small := (Forall small_map).
Lemma small_flat {A} (g : A -> list part) l : small (flat_map g l) -> Forall (fun a => small (g a)) l.
Proof. induction l as [|a l IH]; cbn; [constructor|]. rewrite Forall_app. intros []. constructor; auto. Qed.
Lemma Forall2_same {A} (R : A -> A -> Prop) (G : A -> Prop) l : Forall (fun a => forall b, G a -> R a b -> a = b) l ->
  Forall G l -> forall l', Forall2 R l l' -> l = l'.
Proof. intros H K l' F. induction F; auto. inversion H; inversion K; subst. f_equal; auto. Qed.
Lemma option_same {A} (R : A -> A -> Prop) (G : A -> Prop) o o' :
  match o with Some a => forall b, G a -> R a b -> a = b | None => True end ->
  match o with Some a => G a | None => True end -> same_option R o o' -> o = o'.
Proof. intros H K X. inversion X; subst; auto. f_equal. auto. Qed.
Lemma perm_small {A} (l l' : list A) : length l <= 1 -> Permutation l l' -> l = l'.
Proof.
  intros L P. destruct l as [|a [|b l]]; cbn in L.
  - now rewrite (Permutation_nil P).
  - now rewrite (Permutation_length_1_inv P).
  - exfalso. inversion L as [|? X]. inversion X.
Qed.
Lemma same_small :
  (forall st st', small (parts st) -> same_stmt st st' -> st = st') /\
  (forall e e', small (expr_parts e) -> same_expr e e' -> e = e') /\
  (forall c c', small (class_parts c) -> same_class c c' -> c = c') /\
  (forall f f', small (fun_parts f) -> same_fun f f' -> f = f').
Proof.
  apply (tree_ind (fun st => forall st', small (parts st) -> same_stmt st st' -> st = st')
    (fun e => forall e', small (expr_parts e) -> same_expr e e' -> e = e')
    (fun c => forall c', small (class_parts c) -> same_class c c' -> c = c')
    (fun f => forall f', small (fun_parts f) -> same_fun f f' -> f = f')); intros;
  cbn [parts expr_parts class_parts fun_parts] in *;
  repeat match goal with
  | H : small (_ :: _) |- _ => apply Forall_cons_iff in H; destruct H
  | H : small (_ ++ _) |- _ => apply Forall_app in H; destruct H
  | H : small (flat_map _ _) |- _ => apply small_flat in H
  end;
  match goal with
  | X : same_stmt _ _ |- _ => inversion X; subst; clear X
  | X : same_expr _ _ |- _ => inversion X; subst; clear X
  | X : same_class _ _ |- _ => inversion X; subst; clear X
  | X : same_fun _ _ |- _ => inversion X; subst; clear X
  end; try (f_equal; auto; fail).
  - f_equal. eapply (Forall2_same same_stmt (fun st => small (parts st))); eassumption.
  - match goal with N : same_named _ _ |- _ => inversion N; subst end. repeat f_equal; auto.
  - f_equal; auto. eapply (option_same same_stmt (fun st => small (parts st))); [| |eassumption]; destruct e; auto.
  - f_equal; auto. eapply (Forall2_same same_expr (fun e => small (expr_parts e))); eassumption.
  - f_equal. eapply (Forall2_same same_expr (fun e => small (expr_parts e))); eassumption.
  - (* map *)
    f_equal. assert (m = m1) as <-.
    { eapply (Forall2_same (same_entry same_expr) (fun kv => small (match kv with (_, a) => expr_parts a end))); [|assumption|eassumption].
      refine (Forall_impl _ _ H). intros [k e] X b Y Z. inversion Z; subst. f_equal. now apply X. }
    now apply perm_small.
  - (* class *)
    f_equal.
    + eapply (option_same same_expr (fun e => small (expr_parts e))); [| |eassumption]; destruct s; auto.
    + eapply (Forall2_same same_named (fun n => small (match n with NamedFun _ f => fun_parts f end))); [|eassumption|eassumption].
      match goal with HF : Forall (Pn _) ms |- _ => refine (Forall_impl _ _ HF) end. intros [x f] X b Y Z. inversion Z; subst. f_equal. now apply X.
  - f_equal. eapply (Forall2_same same_stmt (fun st => small (parts st))); eassumption.
Qed.
Lemma program_small l l' : small (program_parts l) -> Forall2 same_stmt l l' -> l = l'.
Proof.
  intros A. apply small_flat in A. apply (Forall2_same same_stmt (fun st => small (parts st))); auto.
  apply Forall_forall. intros st _. apply same_small.
Qed.
