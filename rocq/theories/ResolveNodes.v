(** Facts about the nodes of a tree: what they depend on, how deep they are,
    and that their slots are determined. *)
From Verif Require Import Base F64 Token Ast AstInd SpecResolve.
From Coq Require Import Lia.

(** ** Nodes do not depend on the globals *)
Definition sim (c c' : ctx) : Prop :=
  c_fun c = c_fun c' /\ c_class c = c_class c' /\ c_locals c = c_locals c'.
Definition alike (a b : ctx * node) : Prop := sim (fst a) (fst b) /\ snd a = snd b.

Lemma sim_declare : forall xs c c', sim c c' -> sim (declare_names xs c) (declare_names xs c').
Proof.
  intros xs c c' (F & K & L). unfold declare_names, sim. rewrite <- L.
  destruct (c_locals c); auto.
Qed.
Lemma sim_init : forall x c c', sim c c' -> sim (initialising x c) (initialising x c').
Proof.
  intros xs c c' (F & K & L). unfold initialising, sim. rewrite <- L.
  destruct (c_locals c); auto.
Qed.
Lemma sim_open : forall xs c c', sim c c' -> sim (open_scope xs c) (open_scope xs c').
Proof. intros xs c c' (F & K & L). unfold sim. cbn. rewrite L. auto. Qed.
Lemma sim_fun : forall k c c', sim c c' -> sim (in_function k c) (in_function k c').
Proof. intros xs c c' (F & K & L). unfold sim. cbn. auto. Qed.
Lemma sim_class : forall k c c', sim c c' -> sim (in_class k c) (in_class k c').
Proof. intros xs c c' (F & K & L). unfold sim. cbn. auto. Qed.

Lemma alike_flat : forall A (f g : A -> list (ctx * node)) l,
  Forall (fun a => Forall2 alike (f a) (g a)) l ->
  Forall2 alike (flat_map f l) (flat_map g l).
Proof. induction 1; cbn; auto using Forall2_app. Qed.
Lemma alike_thread : forall b,
  Forall (fun st => forall c c', sim c c' -> Forall2 alike (nodes c st) (nodes c' st)) b ->
  forall c c', sim c c' -> Forall2 alike (thread nodes c b) (thread nodes c' b).
Proof.
  induction 1; intros c c' S; cbn [thread]; auto.
  apply Forall2_app; auto using sim_declare.
Qed.
Lemma nodes_alike :
  (forall st c c', sim c c' -> Forall2 alike (nodes c st) (nodes c' st)) /\
  (forall e c c', sim c c' -> Forall2 alike (expr_nodes c e) (expr_nodes c' e)) /\
  (forall d c c', sim c c' -> Forall2 alike (class_nodes c d) (class_nodes c' d)) /\
  (forall f c c', sim c c' -> Forall2 alike (fun_nodes c f) (fun_nodes c' f)).
Proof.
  apply tree_ind; intros;
    cbn [nodes expr_nodes fun_nodes class_nodes];
    try (apply Forall2_cons; [split; auto |]);
    try (apply Forall2_app; [|apply Forall2_cons; [split; auto | apply Forall2_nil]]);
    repeat apply Forall2_app; auto using sim_init, sim_declare, sim_open, sim_fun, alike_thread;
    try (apply alike_flat; eapply Forall_impl; [|eassumption]; cbn; auto; fail).
  - destruct e; cbn in *; auto using sim_declare.
  - apply alike_flat. eapply Forall_impl; [|exact H]. intros [k e]; cbn; auto.
  - destruct s; cbn in *.
    + apply Forall2_app; auto using sim_class, sim_declare.
      apply alike_flat. eapply Forall_impl; [|exact H0]. intros [m f]; cbn.
      auto 8 using sim_class, sim_declare, sim_fun, sim_open.
    + apply alike_flat. eapply Forall_impl; [|exact H0]. intros [m f]; cbn.
      auto 8 using sim_class, sim_declare, sim_fun, sim_open.
Qed.
Lemma program_alike : forall l c c', sim c c' ->
  Forall2 alike (program_nodes c l) (program_nodes c' l).
Proof.
  intros. apply alike_thread; auto. apply Forall_forall. intros st _. apply nodes_alike.
Qed.

Lemma Forall_alike : forall (P : ctx * node -> Prop) a b,
  (forall x y, alike x y -> P x -> P y) -> Forall2 alike a b -> Forall P a -> Forall P b.
Proof. intros P a b H A. induction A; intros F; inversion F; subst; eauto. Qed.
Lemma sim_sym : forall c c', sim c c' -> sim c' c.
Proof. unfold sim. intuition. Qed.

Ltac alike_tac :=
  let c := fresh "c" in let c' := fresh "c'" in let n := fresh "n" in
  intros [c n] [c' ?] [(? & ? & ?) ?]; cbn in *; subst;
  destruct c as [? ? ? ? ?], c' as [? ? ? ? ?]; cbn in *; subst.
Lemma addressed_alike : forall G x y, alike x y -> addressed G x -> addressed G y.
Proof. intros G. alike_tac. auto. Qed.
Lemma mention_alike : forall x y, alike x y -> mention x = mention y.
Proof. alike_tac. reflexivity. Qed.
Lemma depth_alike : forall x y, alike x y -> depth_rule x -> depth_rule y.
Proof. alike_tac. auto. Qed.
Lemma size_alike : forall x y, alike x y -> size_rule x -> size_rule y.
Proof. alike_tac. auto. Qed.
Lemma return_alike : forall x y, alike x y -> return_rule x -> return_rule y.
Proof. alike_tac. auto. Qed.
Lemma this_alike : forall x y, alike x y -> this_rule x -> this_rule y.
Proof. alike_tac. auto. Qed.
Lemma redeclaration_alike : forall x y, alike x y -> redeclaration_rule x -> redeclaration_rule y.
Proof. alike_tac. auto. Qed.
Lemma inheritance_alike : forall x y, alike x y -> inheritance_rule x -> inheritance_rule y.
Proof. alike_tac. auto. Qed.
Lemma mentions_alike : forall a b, Forall2 alike a b -> flat_map mention a = flat_map mention b.
Proof. induction 1; cbn; auto. erewrite mention_alike by eauto. congruence. Qed.

(** ** Depth *)
Definition depth (c : ctx) : N := N.of_nat (length (c_locals c)).
Lemma depth_declare : forall xs c, depth (declare_names xs c) = depth c.
Proof. intros. unfold depth, declare_names. destruct (c_locals c); reflexivity. Qed.
Lemma depth_init : forall x c, depth (initialising x c) = depth c.
Proof. intros. unfold depth, initialising. destruct (c_locals c); reflexivity. Qed.
Lemma depth_open : forall xs c, depth (open_scope xs c) = (1 + depth c)%N.
Proof. intros. unfold depth, open_scope. cbn [c_locals length]. lia. Qed.
Lemma depth_class : forall k c, depth (in_class k c) = depth c.
Proof. reflexivity. Qed.
Lemma depth_function : forall k c, depth (in_function k c) = depth c.
Proof. reflexivity. Qed.

Notation shallow ns := (Forall depth_rule ns).
Lemma shallow_thread : forall b,
  Forall (fun st => forall c, (depth c <= 65534)%N ->
    (shallow (nodes c st) <-> (depth c + nesting st <= 65534)%N)) b ->
  forall c, (depth c <= 65534)%N ->
  (shallow (thread nodes c b) <-> (depth c + deepest nesting b <= 65534)%N).
Proof.
  induction 1 as [|st r H Hr IH]; intros c HD; cbn [thread deepest].
  - split; auto; lia.
  - rewrite Forall_app, H, IH by (rewrite ?depth_declare; auto). rewrite depth_declare. lia.
Qed.
Lemma shallow_flat : forall A (f : A -> list (ctx * node)) (g : A -> N) d l,
  (d <= 65534)%N ->
  Forall (fun a => shallow (f a) <-> (d + g a <= 65534)%N) l ->
  (shallow (flat_map f l) <-> (d + deepest g l <= 65534)%N).
Proof.
  induction 2 as [|a r H1 Hr IH]; cbn [flat_map deepest].
  - split; auto; lia.
  - rewrite Forall_app, H1, IH. lia.
Qed.
Lemma Forall_cons_iff2 : forall A (P : A -> Prop) a l, Forall P (a :: l) <-> P a /\ Forall P l.
Proof. intros. split; [intros H; inversion H; auto | intros [H1 H2]; constructor; auto]. Qed.
Lemma Forall_nil_iff2 : forall A (P : A -> Prop), Forall P nil <-> True.
Proof. intros. split; auto. Qed.

Lemma nodes_depth :
  (forall st c, (depth c <= 65534)%N ->
     (shallow (nodes c st) <-> (depth c + nesting st <= 65534)%N)) /\
  (forall e c, (depth c <= 65534)%N ->
     (shallow (expr_nodes c e) <-> (depth c + expr_nesting e <= 65534)%N)) /\
  (forall d c, (depth c <= 65534)%N ->
     (shallow (nodes c (SClass d)) <-> (depth c + class_nesting d <= 65534)%N)) /\
  (forall f c, (depth c <= 65534)%N ->
     (shallow (fun_nodes c f) <-> (depth c + fun_nesting f <= 65534)%N)).
Proof.
  apply tree_ind; intros.
  all: cbn [nodes expr_nodes fun_nodes class_nodes nesting expr_nesting fun_nesting class_nesting].
  all: rewrite ?Forall_cons_iff2, ?Forall_app, ?Forall_cons_iff2, ?Forall_nil_iff2;
       cbn [depth_rule];
       repeat match goal with
       | |- context[N.of_nat (length (c_locals ?x))] =>
         change (N.of_nat (length (c_locals x))) with (depth x)
       end.
  all: try (repeat match goal with
            | IH : forall c, _ -> (shallow _ <-> _) |- context[shallow _] =>
              rewrite IH by (rewrite ?depth_function, ?depth_declare, ?depth_init; auto); clear IH
            end; rewrite ?depth_function, ?depth_declare, ?depth_init; lia).
  all: try (rewrite (shallow_flat _ _ expr_nesting (depth c));
            [ rewrite ?H by auto; lia | auto | eapply Forall_impl; [|eassumption]; cbn; auto ]; fail).
  - (* block *)
    split.
    + intros [D F]. apply shallow_thread in F; auto; rewrite depth_open in *; lia.
    + intros L. split; [lia|]. apply shallow_thread; auto; rewrite depth_open; lia.
  - (* class *) rewrite <- H by auto. cbn [nodes]. rewrite Forall_cons_iff2. reflexivity.
  - (* if *)
    rewrite H, H0 by auto. destruct e; cbn in *.
    + rewrite H1 by (rewrite depth_declare; auto). rewrite depth_declare. lia.
    + rewrite Forall_nil_iff2. lia.
  - (* map *)
    rewrite (shallow_flat _ _ (fun kv => match kv with (_, e) => expr_nesting e end) (depth c)); auto; [lia|].
    eapply Forall_impl; [|exact H]. intros [k e] He. cbn in *. auto.
  - (* class definition *)
    destruct s as [e|]; cbn in H.
    + rewrite Forall_app, H by (rewrite depth_class, depth_declare; auto).
      rewrite depth_class, depth_declare. split.
      * intros (D & L & F).
        rewrite (shallow_flat _ _ (fun m => match m with NamedFun _ f => fun_nesting f end) (2 + depth c)) in F;
          [lia|lia|].
        eapply Forall_impl; [|exact H0]. intros [m f] Hf. cbn in Hf. rewrite Hf;
          rewrite depth_function, !depth_open, depth_class, depth_declare; lia.
      * intros L. split; [lia|]. split; [lia|].
        rewrite (shallow_flat _ _ (fun m => match m with NamedFun _ f => fun_nesting f end) (2 + depth c));
          [lia|lia|].
        eapply Forall_impl; [|exact H0]. intros [m f] Hf. cbn in Hf. rewrite Hf;
          rewrite depth_function, !depth_open, depth_class, depth_declare; lia.
    + split.
      * intros (D & F).
        rewrite (shallow_flat _ _ (fun m => match m with NamedFun _ f => fun_nesting f end) (1 + depth c)) in F;
          [lia|lia|].
        eapply Forall_impl; [|exact H0]. intros [m f] Hf. cbn in Hf. rewrite Hf;
          rewrite depth_function, !depth_open, depth_class, depth_declare; lia.
      * intros L. split; [lia|].
        rewrite (shallow_flat _ _ (fun m => match m with NamedFun _ f => fun_nesting f end) (1 + depth c));
          [lia|lia|].
        eapply Forall_impl; [|exact H0]. intros [m f] Hf. cbn in Hf. rewrite Hf;
          rewrite depth_function, !depth_open, depth_class, depth_declare; lia.
  - (* function definition *)
    split.
    + intros [D F]. apply shallow_thread in F; auto; rewrite depth_open in *; lia.
    + intros L. split; [lia|]. apply shallow_thread; auto; rewrite depth_open; lia.
Qed.
