(** Programs can be put together and reordered (C104). *)
From Verif Require Import Base F64 Token Ast Resolver AstInd SpecResolve SpecRename SpecOrder ResolveStep ResolveNodes ResolveFinal
  ResolveProps Rerun.
From Coq Require Import Permutation.
Local Open Scope list_scope.

Definition blank : rstate := mkR [nil] NoFunction NoClass.
Lemma blank_new : resolver_new = Done blank.
Proof. reflexivity. Qed.
Lemma blank_top : top_state blank.
Proof. exact (new_top _ blank_new). Qed.
Lemma blank_context : context blank = start.
Proof. reflexivity. Qed.
Lemma blank_table : table blank = nil.
Proof. reflexivity. Qed.
Lemma resolve_blank : forall l r, resolve l = Done (Ok r) <-> exists s, resolver_resolve l blank = Done (Ok r, s).
Proof.
  intros l r. unfold resolve. rewrite blank_new. cbn [obind]. destruct (resolver_resolve l blank) as [[x s]|w| |]; cbn; split.
  - intros X. injection X as ->. eauto.
  - intros (s' & X). injection X as -> ->. auto.
  - discriminate.
  - intros (s' & X). discriminate.
  - discriminate.
  - intros (s' & X). discriminate.
  - discriminate.
  - intros (s' & X). discriminate.
Qed.

(** ** In pieces *)
Lemma thread_app : forall a b c,
  program_nodes c (a ++ b) = program_nodes c a ++ program_nodes (fold_left (fun d st => declare_names (declared st) d) a c) b.
Proof.
  induction a as [|st a IH]; intros b c; cbn; auto. unfold program_nodes in *. cbn. rewrite IH. now rewrite app_assoc.
Qed.
Definition open_top (c : ctx) : Prop := exists g, c = mkCtx AtTop OutsideClass nil nil g.
Lemma open_declare : forall xs c, open_top c -> open_top (declare_names xs c).
Proof. intros xs c (g & ->). eexists. reflexivity. Qed.
Lemma open_start : open_top start.
Proof. exists nil. reflexivity. Qed.
Lemma open_fold : forall a c, open_top c -> open_top (fold_left (fun d st => declare_names (declared st) d) a c).
Proof. induction a; cbn; auto using open_declare. Qed.
Lemma open_freer : forall c, open_top c -> freer start c.
Proof. intros c (g & ->). split; [repeat split|]. split; [apply incl_refl|]. intros x []. Qed.
Lemma open_sim : forall c, open_top c -> sim start c.
Proof. intros c H. apply open_freer. exact H. Qed.

Definition good (l : list stmt) : Prop :=
  Forall allowed (program_nodes start l) /\ Forall (fun st => (nesting st <= 65534)%N) l.
Lemma accepted_iff : forall l, within_bounds l -> ((exists r, resolve l = Done (Ok r)) <-> good l).
Proof.
  intros l [S T]. rewrite <- (program_valid_iff l blank blank_top S T). split.
  - intros (r & H). apply resolve_blank in H. destruct H as (s & H). eauto.
  - intros (r & s & H). exists r. apply resolve_blank. eauto.
Qed.
Lemma good_ok : forall l r, resolve l = Done (Ok r) -> good l.
Proof.
  intros l r H. apply resolve_blank in H. destruct H as (s & H). split.
  - exact (proj1 (proj2 (program_ok _ _ _ _ blank_top H))).
  - exact (nesting_accepted _ _ _ _ blank_top H).
Qed.
Lemma good_app : forall a b, good a -> good b -> good (a ++ b).
Proof.
  intros a b [A1 A2] [B1 B2]. split; [|now apply Forall_app]. rewrite thread_app. apply Forall_app. split; auto.
  eapply allowed_in_freer; [|exact B1]. apply open_freer, open_fold, open_start.
Qed.
Theorem put_together : forall ps, Forall (fun p => exists r, resolve p = Done (Ok r)) ps -> within_bounds (concat ps) ->
  exists r, resolve (concat ps) = Done (Ok r).
Proof.
  intros ps H W. apply accepted_iff; auto. clear W. induction H as [|p ps (r & H) _ IH]; cbn; [split; constructor|].
  apply good_app; auto. eapply good_ok; eauto.
Qed.

(** ** In any order *)
Definition lone (st : stmt) : Prop := Forall allowed (nodes start st).
Lemma program_single : forall st c, program_nodes c [st] = nodes c st.
Proof. intros st c. unfold program_nodes. cbn. apply app_nil_r. Qed.
Lemma good_lone : forall l, Forall lone l -> Forall (fun st => (nesting st <= 65534)%N) l -> good l.
Proof.
  induction l as [|st l IH]; intros L N; [split; constructor|]. inversion L; inversion N; subst.
  change (st :: l) with ([st] ++ l). apply good_app; auto. split; auto. now rewrite program_single.
Qed.
Definition other_rules (cn : ctx * node) : Prop :=
  return_rule cn /\ this_rule cn /\ redeclaration_rule cn /\ inheritance_rule cn.
Lemma other_alike : forall a b, ResolveNodes.alike a b -> other_rules a -> other_rules b.
Proof.
  intros [c n] [c' n'] [(F & K & L) E]. cbn in *. subst n'.
  unfold other_rules, return_rule, this_rule, redeclaration_rule, inheritance_rule. rewrite F, K. auto.
Qed.
Lemma lone_at : forall st c, open_top c -> order_free st -> Forall allowed (nodes c st) -> lone st.
Proof.
  intros st c O Fr A. unfold lone, order_free in *. change at_top with start in Fr.
  assert (X : Forall other_rules (nodes start st)).
  { assert (Q := proj1 nodes_alike st c start). assert (Sc : sim c start) by (destruct (open_sim c O) as (E1 & E2 & E3); repeat split; auto).
    specialize (Q Sc). clear Fr. induction Q as [|a b i j P Q IH]; constructor; inversion A; subst; auto.
    eapply other_alike; [exact P|]. unfold allowed in *. unfold other_rules. tauto. }
  rewrite Forall_forall in *. intros y Iy. specialize (X y Iy). specialize (Fr y Iy). unfold allowed. unfold other_rules in X. tauto.
Qed.
Lemma lone_all : forall l c, open_top c -> Forall order_free l -> Forall allowed (program_nodes c l) -> Forall lone l.
Proof.
  induction l as [|st l IH]; intros c O Fr A; constructor; inversion Fr; subst; change (st :: l) with ([st] ++ l) in A;
    rewrite thread_app, program_single in A; apply Forall_app in A; destruct A.
  - eapply lone_at; eauto.
  - eapply IH; [|assumption|eassumption]. now apply open_fold.
Qed.
Theorem accepted_lone : forall l, within_bounds l -> Forall order_free l ->
  ((exists r, resolve l = Done (Ok r)) <-> Forall lone l /\ Forall (fun st => (nesting st <= 65534)%N) l).
Proof.
  intros l W Fr. rewrite (accepted_iff l W). split; intros [A B].
  - split; auto. eapply lone_all; eauto using open_start.
  - now apply good_lone.
Qed.

(** ** The table of globals *)
Lemma mentions_at : forall st c, open_top c -> flat_map mention (nodes c st) = flat_map mention (nodes start st).
Proof.
  intros st c O. rewrite <- !program_single. symmetry. apply mentions_alike, program_alike. now apply open_sim.
Qed.
Definition mentions (l : list stmt) : list string := flat_map (fun st => flat_map mention (nodes start st)) l.
Lemma mentions_program : forall l c, open_top c -> flat_map mention (program_nodes c l) = mentions l.
Proof.
  induction l as [|st l IH]; intros c O; auto. change (st :: l) with ([st] ++ l). rewrite thread_app, program_single, flat_map_app.
  cbn [app fold_left]. rewrite IH by now apply open_declare. cbn. f_equal. now apply mentions_at.
Qed.
Lemma add_all_only : forall xs G y, In y (add_all G xs) -> In y G \/ In y xs.
Proof.
  induction xs as [|x xs IH]; intros G y; cbn; auto. intros H. apply IH in H. destruct H as [H|H]; auto.
  destruct (mem x G); auto. apply in_app_or in H. cbn in H. intuition.
Qed.
Lemma add_all_nodup : forall xs G, NoDup G -> NoDup (add_all G xs).
Proof.
  induction xs as [|x xs IH]; intros G N; cbn; auto. apply IH. destruct (mem x G) eqn:M; auto.
  apply NoDup_rev in N. rewrite <- (rev_involutive (G ++ [x])). apply NoDup_rev. rewrite rev_app_distr. cbn. constructor; auto.
  rewrite <- in_rev. intros I. apply mem_In in I. congruence.
Qed.
Lemma mentions_perm : forall l l', Permutation l l' -> Permutation (add_all nil (mentions l)) (add_all nil (mentions l')).
Proof.
  intros l l' P. apply NoDup_Permutation; try apply add_all_nodup; try constructor.
  - intros H. apply add_all_only in H. destruct H as [[]|H]. apply add_all_in. unfold mentions in *.
    apply (Permutation_in x (Permutation_flat_map _ P)). exact H.
  - intros H. apply add_all_only in H. destruct H as [[]|H]. apply add_all_in. unfold mentions in *.
    apply (Permutation_in x (Permutation_flat_map _ (Permutation_sym P))). exact H.
Qed.
Lemma global_names_mentions : forall l, global_names l = add_all nil (mentions l).
Proof. intros l. unfold global_names. change at_top with start. rewrite mentions_program; auto using open_start. Qed.
Theorem names_perm : forall l l', Permutation l l' -> Permutation (global_names l) (global_names l').
Proof. intros l l' P. rewrite !global_names_mentions. now apply mentions_perm. Qed.
Lemma size_same : forall a b, ResolveNodes.alike a b -> size_rule a -> size_rule b.
Proof. intros [c n] [c' n'] [_ E]. cbn in *. subst n'. auto. Qed.
Lemma sizes_at : forall l c, open_top c ->
  (Forall size_rule (program_nodes c l) <-> Forall (fun st => Forall size_rule (nodes start st)) l).
Proof.
  induction l as [|st l IH]; intros c O; [split; constructor|]. change (st :: l) with ([st] ++ l).
  rewrite thread_app, program_single, Forall_app. cbn [app fold_left]. rewrite IH by now apply open_declare.
  assert (X : Forall size_rule (nodes c st) <-> Forall size_rule (nodes start st)).
  { assert (S1 := open_sim c O). assert (S2 : sim c start) by (destruct S1 as (E1 & E2 & E3); repeat split; auto).
    assert (Q : forall i j, Forall2 ResolveNodes.alike i j -> Forall size_rule i -> Forall size_rule j).
    { induction 1; intros A; constructor; inversion A; subst; eauto using size_same. }
    split; apply Q; now apply nodes_alike. }
  rewrite X. split; [intros [A B]; constructor; auto|intros A; inversion A; auto].
Qed.
Theorem bounds_perm : forall l l', Permutation l l' -> within_bounds l -> within_bounds l'.
Proof.
  intros l l' P [S T]. split.
  - change at_top with start in *. apply sizes_at; [apply open_start|]. apply sizes_at in S; [|apply open_start].
    rewrite Forall_forall in *. intros st I. apply S. apply (Permutation_in st (Permutation_sym P)). exact I.
  - rewrite <- (Permutation_length (names_perm _ _ P)). exact T.
Qed.
Theorem any_order : forall l l', Permutation l l' -> within_bounds l -> Forall order_free l ->
  ((exists r, resolve l = Done (Ok r)) <-> exists r', resolve l' = Done (Ok r')).
Proof.
  intros l l' P W Fr.
  assert (M : forall A : stmt -> Prop, Forall A l <-> Forall A l').
  { intros A. rewrite !Forall_forall. split; intros H st I; apply H.
    - apply (Permutation_in st (Permutation_sym P)). exact I.
    - apply (Permutation_in st P). exact I. }
  rewrite (accepted_lone l W Fr), (accepted_lone l' (bounds_perm _ _ P W) (proj1 (M _) Fr)), (M lone), (M (fun st => (nesting st <= 65534)%N)).
  reflexivity.
Qed.
(** The table after an accepted program is that of its names. *)
Theorem table_names : forall l r s, resolver_resolve l blank = Done (Ok r, s) -> table s = global_names l.
Proof. intros l r s H. exact (proj1 (proj2 (proj2 (proj2 (program_ok _ _ _ _ blank_top H))))). Qed.
Theorem reordered_table : forall l l' r r' s s', Permutation l l' ->
  resolver_resolve l blank = Done (Ok r, s) -> resolver_resolve l' blank = Done (Ok r', s') ->
  table s = global_names l /\ table s' = global_names l' /\ Permutation (table s) (table s').
Proof.
  intros l l' r r' s s' P H H'. rewrite (table_names _ _ _ H), (table_names _ _ _ H'). auto using names_perm.
Qed.
