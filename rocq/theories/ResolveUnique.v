(** The slots of a tree are determined by the tree. *)
From Verif Require Import Base F64 Token Ast AstInd SpecResolve ResolveStep ResolveSound.
From Coq Require Import Lia.

Lemma resolves_to_fun : forall G x locals v w,
  resolves_to G locals x v -> resolves_to G locals x w -> v = w.
Proof.
  intros G x locals v w.
  intros [(i1 & s1 & o1 & k1 & E1 & N1 & F1 & ->)|(N1 & k1 & F1 & ->)]
         [(i2 & s2 & o2 & k2 & E2 & N2 & F2 & ->)|(N2 & k2 & F2 & ->)].
  - assert (H : i1 = i2 /\ s1 = s2).
    { subst locals. clear -E2 N1 F1 N2 F2. revert i2 E2 N2.
      assert (I1 := first_at_In _ _ _ F1). assert (I2 := first_at_In _ _ _ F2).
      induction i1 as [|a i1 IH]; intros [|b i2] E N2; cbn in E; injection E as E1 E2; subst.
      - auto.
      - exfalso. apply (N2 b); cbn; auto.
      - exfalso. apply (N1 s2); cbn; auto.
      - destruct (IH (fun s H => N1 s (or_intror H)) i2 E2 (fun s H => N2 s (or_intror H))).
        subst. auto. }
    destruct H; subst. now rewrite (first_at_fun _ _ _ _ F1 F2).
  - exfalso. apply (N2 s1); [rewrite E1; apply in_elt | eauto using first_at_In].
  - exfalso. apply (N1 s2); [rewrite E2; apply in_elt | eauto using first_at_In].
  - now rewrite (first_at_fun _ _ _ _ F1 F2).
Qed.

Section Unique.
Variable G : list string.
Notation addr ns := (Forall (addressed G) ns).

Definition Us (st : stmt) : Prop := forall c t,
  erase t = erase st -> addr (nodes c st) -> addr (nodes c t) -> t = st.
Definition Ue (e : expr) : Prop := forall c t,
  erase_expr t = erase_expr e -> addr (expr_nodes c e) -> addr (expr_nodes c t) -> t = e.
Definition Uf (f : fun_def) : Prop := forall c t,
  erase_fun t = erase_fun f -> addr (fun_nodes c f) -> addr (fun_nodes c t) -> t = f.
Definition Uc (d : class_def) : Prop := forall c t,
  erase_class t = erase_class d -> addr (class_nodes c d) -> addr (class_nodes c t) -> t = d.

Lemma unique_thread : forall b, Forall Us b -> forall c t,
  map erase t = map erase b -> addr (thread nodes c b) -> addr (thread nodes c t) -> t = b.
Proof.
  induction 1 as [|st r H Hr IH]; intros c [|u t] E A1 A2; try discriminate; auto.
  cbn [map] in E. injection E as E1 E2. rewrite thread_cons, Forall_app in A1, A2.
  destruct A1 as [A1 B1], A2 as [A2 B2]. rewrite (declared_same u st) in B2 by auto.
  f_equal; eauto.
Qed.
Lemma unique_exprs : forall es, Forall Ue es -> forall c ts,
  map erase_expr ts = map erase_expr es ->
  addr (flat_map (expr_nodes c) es) -> addr (flat_map (expr_nodes c) ts) -> ts = es.
Proof.
  induction 1 as [|st r H Hr IH]; intros c [|u t] E A1 A2; try discriminate; auto.
  cbn [map flat_map] in *. injection E as E1 E2. rewrite Forall_app in A1, A2.
  destruct A1 as [A1 B1], A2 as [A2 B2]. f_equal; eauto.
Qed.
Lemma unique_entries : forall m, Forall (fun kv => Ue (snd kv)) m -> forall c ts,
  map (fun kv => match kv with (k, e) => (k, erase_expr e) end) ts =
  map (fun kv => match kv with (k, e) => (k, erase_expr e) end) m ->
  addr (flat_map (fun kv : string * expr => match kv with (_, e) => expr_nodes c e end) m) ->
  addr (flat_map (fun kv : string * expr => match kv with (_, e) => expr_nodes c e end) ts) -> ts = m.
Proof.
  induction 1 as [|[k e] r H Hr IH]; intros c [|[k' u] t] E A1 A2; try discriminate; auto.
  cbn [map flat_map snd] in *. injection E as E0 E1 E2. rewrite Forall_app in A1, A2.
  destruct A1 as [A1 B1], A2 as [A2 B2]. subst. f_equal; [f_equal; eauto | eauto].
Qed.
Lemma unique_methods : forall ms, Forall (Pn Uf) ms -> forall c ts,
  map (fun m => match m with NamedFun n f => NamedFun n (erase_fun f) end) ts =
  map (fun m => match m with NamedFun n f => NamedFun n (erase_fun f) end) ms ->
  addr (method_nodes c ms) -> addr (method_nodes c ts) -> ts = ms.
Proof.
  unfold method_nodes.
  induction 1 as [|[k e] r H Hr IH]; intros c [|[k' u] t] E A1 A2; try discriminate; auto.
  cbn [map flat_map Pn] in *. injection E as E0 E1 E2. rewrite Forall_app in A1, A2.
  destruct A1 as [A1 B1], A2 as [A2 B2]. subst. f_equal; [f_equal; eauto | eauto].
Qed.

Ltac split_addr :=
  repeat match goal with
  | H : Forall (addressed G) (_ :: _) |- _ => rewrite Forall_cons_iff' in H
  | H : Forall (addressed G) (_ ++ _) |- _ => rewrite Forall_app in H
  | H : _ /\ _ |- _ => destruct H
  end.
Ltac by_ih :=
  match goal with
  | IH : Us ?x |- ?t = ?x => solve [eapply IH; eauto]
  | IH : Ue ?x |- ?t = ?x => solve [eapply IH; eauto]
  | IH : Uf ?x |- ?t = ?x => solve [eapply IH; eauto]
  | IH : Uc ?x |- ?t = ?x => solve [eapply IH; eauto]
  | IH : Forall Us ?x |- ?t = ?x => solve [eapply unique_thread; eauto]
  | IH : Forall Ue ?x |- ?t = ?x => solve [eapply unique_exprs; eauto]
  | IH : Forall _ ?x |- ?t = ?x => solve [eapply unique_entries; eauto]
  | _ => reflexivity
  end.

Lemma unique_trees : (forall st, Us st) /\ (forall e, Ue e) /\ (forall d, Uc d) /\ (forall f, Uf f).
Proof.
  apply tree_ind; intros; intros cx t0 E A1 A2.
  all: destruct t0; try match goal with n : named_fun |- _ => destruct n end;
       cbn [erase erase_expr erase_fun erase_class] in E; try discriminate E.
  all: try (injection E; intros; subst; clear E;
            cbn [nodes expr_nodes fun_nodes class_nodes] in A1, A2; split_addr;
            f_equal; by_ih).
  - (* fun *)
    injection E. intros. subst. cbn [nodes] in A1, A2. split_addr. do 2 f_equal. by_ih.
  - (* if *)
    injection E. intros E1 E2 E3. cbn [nodes] in A1, A2. split_addr.
    assert (t0 = t) by by_ih. subst. f_equal; try by_ih.
    destruct e, e0; cbn in *; try discriminate; auto. injection E1 as E1. f_equal. eauto.
  - (* var *)
    injection E. intros. subst. cbn [nodes] in A1, A2. split_addr. f_equal; try by_ih.
    repeat match goal with H : addressed G _ |- _ => destruct H as (? & -> & ?) end.
    destruct (c_locals cx); match goal with
      A : first_at _ ?j _, B : first_at _ ?k _ |- _ => rewrite (first_at_fun _ _ _ _ A B) end; reflexivity.
  - (* while-increment *)
    injection E. intros E1 E2 E3. cbn [nodes] in A1, A2. split_addr.
    assert (t0 = b) by by_ih. subst. f_equal; by_ih.
  - (* assign *)
    injection E. intros. subst. cbn [expr_nodes] in A1, A2. split_addr. f_equal; try by_ih.
    cbn in *. eapply resolves_to_fun; eauto.
  - reflexivity.
  - (* super *)
    injection E. intros. subst. cbn [expr_nodes app] in A1, A2. split_addr. f_equal.
    cbn in *. eapply resolves_to_fun; eauto.
  - (* variable *)
    injection E. intros. subst. cbn [expr_nodes app] in A1, A2. split_addr. f_equal.
    cbn in *. eapply resolves_to_fun; eauto.
  - (* class *)
    injection E. intros. subst. cbn [class_nodes] in A1, A2.
    destruct s, super; cbn in *; try discriminate; split_addr.
    + injection H3 as H3. f_equal; [f_equal; eauto|].
      eapply unique_methods; unfold method_nodes; eauto.
    + f_equal. eapply unique_methods; unfold method_nodes; eauto.
Qed.

Lemma unique_program : forall l c t, map erase t = map erase l ->
  addr (program_nodes c l) -> addr (program_nodes c t) -> t = l.
Proof.
  intros. eapply unique_thread; eauto. apply Forall_forall. intros st _. apply unique_trees.
Qed.
End Unique.
