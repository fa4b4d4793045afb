(** The trees of derivations have the shape described in SpecTree. *)
From Verif Require Import Base F64 Token Ast SpecGrammar SpecTree ParseFirst.
From Coq Require Import Lia.

Lemma suffix_incl : forall i r, suffix i r -> incl r i.
Proof. intros i r (a & ->) x H. apply in_app_iff. auto. Qed.

Section Tree.
Variable toks : list token.
Variable trailing : bool.

Definition shaped (p : part) : Prop :=
  (precedence_ok p /\ within_limits p /\ distinct_keys p /\ assigns_name p) /\
  (kinds_ok p /\ superclass_ok p /\ unlocated p /\ else_nearest p /\ branches_ok p) /\ located toks p.
Definition GE (e : expr) : Prop := Forall shaped (expr_parts e).
Definition GS (st : stmt) : Prop := Forall shaped (parts st).
Definition GF (f : fun_def) : Prop := Forall shaped (fun_parts f).
Definition GSs (l : list stmt) : Prop := Forall shaped (flat_map parts l).
Definition GEs (l : list expr) : Prop := Forall shaped (flat_map expr_parts l).

Definition fine (N : sym) (v : val) (r : list token) : Prop :=
  match N, v with
  | Expression, VE e | Condition, VE e => GE e
  | Target, VE e => GE e /\ 1 <= strength e
  | Binary lv, VE e => lv <= top_level -> GE e /\ S lv <= strength e
  | BinaryTail lv e0, VE e => lv < top_level -> GE e0 -> S lv <= strength e0 -> GE e /\ S lv <= strength e
  | Unary, VE e => GE e /\ 7 <= strength e
  | Call, VE e | Primary, VE e => GE e /\ 8 <= strength e
  | CallTail e0, VE e => GE e0 -> 8 <= strength e0 -> GE e /\ 8 <= strength e
  | Arguments, VEs es | Elements, VEs es => GEs es
  | Entries, VM m => GEs (map snd m) /\
      Forall (fun kv => (exists l, at_name toks (fst kv) l) \/
        exists t, In t toks /\ t_type t = TString /\ t_string t = Some (fst kv)) m
  | Parameters, VPs ps => Forall (fun p => at_name toks (p_name p) (p_loc p)) ps
  | Function l, VF f => GF f /\ kind f = PlainFunction /\ fun_loc f = l
  | Block, VSs l | Statements _, VSs l | Program, VSs l => GSs l
  | Methods _, VMs ms =>
      Forall shaped (flat_map (fun n => match n with NamedFun _ f => fun_parts f end) ms) /\
      Forall member_ok ms /\
      Forall (fun n => match n with NamedFun m f => at_name toks m (fun_loc f) end) ms
  | VarDeclaration _, VS st | Declaration, VS st => GS st
  | Branch, VS st | Statement, VS st | ExpressionStatement, VS st =>
      GS st /\ is_declaration st = false /\ (starts [Else] r -> open_if st = false)
  | ForInit, VO (Some st) => GS st
  | Increment, VOE (Some e) => GE e
  | _, _ => True
  end.

Lemma map_parts : forall m, flat_map (fun kv : string * expr => match kv with (_, a) => expr_parts a end) m =
  flat_map expr_parts (map snd m).
Proof. induction m as [|[k e] m IH]; cbn; [reflexivity|]. now rewrite IH. Qed.
Lemma with_kind_parts : forall k f, GF f -> GF (with_kind k f).
Proof.
  intros k [ps b k0 l] H. unfold GF in *. cbn in *. inversion H as [|x y A B]; subst.
  constructor; [exact A|exact B].
Qed.
Lemma in_then : forall k i r, token_then k i r -> incl i toks ->
  (exists t, In t toks /\ t_type t = k) /\ incl r toks.
Proof. intros k i r (t & -> & K) H. split; [exists t; split; auto; apply H; now left|intros x X; apply H; now right]. Qed.
Lemma in_name : forall n i r, name_then n i r -> incl i toks -> at_name toks (t_lexeme n) (tloc n) /\ incl r toks.
Proof. intros n i r (-> & K) H. split; [exists n; repeat split; auto; apply H; now left|intros x X; apply H; now right]. Qed.
Lemma in_suffix : forall i r, suffix i r -> incl i toks -> incl r toks.
Proof. intros i r S H x X. apply H. eapply suffix_incl; eauto. Qed.
Lemma in_derives : forall tr b N i v r, derives tr b N i v r -> incl i toks -> incl r toks.
Proof. intros tr b N i v r H. eapply in_suffix, derives_suffix; eauto. Qed.
Lemma in_cons : forall (t : token) i, incl (t :: i) toks -> In t toks /\ incl i toks.
Proof. intros t i H. split; [apply H; now left|intros x X; apply H; now right]. Qed.

Ltac ins := repeat match goal with
  | H : incl (?t :: ?i) toks |- _ =>
    lazymatch goal with _ : incl i toks |- _ => fail | _ => destruct (in_cons t i H) as [? ?] end
  | T : token_then ?k ?i ?r, H : incl ?i toks |- _ =>
    lazymatch goal with _ : incl r toks |- _ => fail | _ => destruct (in_then k i r T H) as [(?t & ? & ?) ?] end
  | T : name_then ?k ?i ?r, H : incl ?i toks |- _ =>
    lazymatch goal with _ : incl r toks |- _ => fail | _ => destruct (in_name k i r T H) as [? ?] end
  | T : paren_then ?i ?r, H : incl ?i toks |- _ =>
    lazymatch goal with _ : incl r toks |- _ => fail | _ => assert (incl r toks) by (eapply in_suffix; [eapply suffix_paren; exact T|exact H]) end
  | T : opens ?k ?i ?r, H : incl ?i toks |- _ =>
    lazymatch goal with _ : incl r toks |- _ => fail | _ => assert (incl r toks) by (eapply in_suffix; [eapply suffix_opens; exact T|exact H]) end
  | T : optional ?k ?i ?r, H : incl ?i toks |- _ =>
    lazymatch goal with _ : incl r toks |- _ => fail | _ => assert (incl r toks) by (eapply in_suffix; [eapply suffix_optional; exact T|exact H]) end
  | T : separator ?i ?r, H : incl ?i toks |- _ =>
    lazymatch goal with _ : incl r toks |- _ => fail | _ => assert (incl r toks) by (eapply in_suffix; [eapply suffix_separator; exact T|exact H]) end
  | T : derives _ _ _ ?i _ ?r, H : incl ?i toks |- _ =>
    lazymatch goal with _ : incl r toks |- _ => fail | _ => assert (incl r toks) by (eapply in_derives; [exact T|exact H]) end
  end.
Ltac iuse := repeat match goal with
  | IH : incl ?i toks -> _, H : incl ?i toks |- _ => specialize (IH H)
  end.


Lemma F_app : forall (l l' : list part), Forall shaped (l ++ l') <-> Forall shaped l /\ Forall shaped l'.
Proof. intros. apply Forall_app. Qed.
Lemma GEs_cons : forall e es, GEs (e :: es) <-> GE e /\ GEs es.
Proof. intros. apply F_app. Qed.
Lemma GSs_cons : forall e es, GSs (e :: es) <-> GS e /\ GSs es.
Proof. intros. apply F_app. Qed.
Lemma GEs_app : forall es es', GEs (es ++ es') <-> GEs es /\ GEs es'.
Proof. intros. unfold GEs. rewrite flat_map_app. apply F_app. Qed.
(** The children of a part. *)
Lemma GE_cons : forall e, GE e <-> shaped (PExpr e) /\ Forall shaped (tl (expr_parts e)).
Proof.
  intros e. unfold GE. destruct e; cbn [expr_parts tl]; split; intros H;
    try (inversion H; now subst); constructor; tauto.
Qed.
Lemma GS_cons : forall e, GS e <-> shaped (PStmt e) /\ Forall shaped (tl (parts e)).
Proof.
  intros e. unfold GS. destruct e; cbn [parts tl]; split; intros H;
    try (inversion H; now subst); constructor; tauto.
Qed.
Lemma GF_cons : forall e, GF e <-> shaped (PFun e) /\ Forall shaped (tl (fun_parts e)).
Proof.
  intros e. unfold GF. destruct e; cbn [fun_parts tl]; split; intros H;
    try (inversion H; now subst); constructor; tauto.
Qed.
Lemma token_at : forall t, In t toks -> at_kind toks (t_type t) (tloc t).
Proof. intros t H. exists t. auto. Qed.
Ltac kids := cbn [expr_parts parts fun_parts class_parts tl]; rewrite ?F_app; auto.
Ltac sh := unfold shaped; cbn; intuition (eauto 8; try discriminate; try lia).

Lemma binary_fine : forall n k f e l e2, operator n k = Some f -> n < top_level ->
  (match k with And | Or => True | _ => at_kind toks k l end) ->
  GE e -> S n <= strength e -> GE e2 -> S (S n) <= strength e2 ->
  GE (f e l e2) /\ S n <= strength (f e l e2).
Proof.
  intros n k f e l e2 O L A G1 S1 G2 S2. unfold top_level in L.
  destruct n as [|[|[|[|[|[|n]]]]]]; try lia; destruct k; cbn in O; try discriminate; injection O as <-;
    (split; [apply GE_cons; split; [sh|kids]|cbn; lia]).
Qed.
Lemma assigned_fine : forall e e2 l e', assigned e e2 l = Some e' -> at_kind toks Equal l ->
  GE e -> GE e2 -> GE e'.
Proof.
  intros e e2 l e' A K G1 G2. destruct e; try discriminate; cbn in A.
  - injection A as <-. apply GE_cons in G1. destruct G1 as [((P & _) & _ & L) C]. cbn in P, L.
    apply GE_cons. split; [sh|kids].
  - injection A as <-. apply GE_cons in G1. destruct G1 as [((P & _) & _ & L) C]. cbn in P, L, C.
    rewrite F_app in C. apply GE_cons. split; [sh|kids; tauto].
  - destruct (String.eqb_spec x "this") as [E|E]; [discriminate|]. injection A as <-.
    apply GE_cons in G1. destruct G1 as [((P & _) & _ & t & I & T & X & _) C].
    apply GE_cons. split; [sh|kids].
Qed.

Lemma all_fine : forall b N i v r, derives trailing b N i v r -> incl i toks -> fine N v r.
Proof.
  induction 1; intros II; ins; iuse; cbn [fine] in *; auto.
  - tauto.
  - eapply assigned_fine; eauto; try tauto. rewrite <- H0. now apply token_at.
  - apply IHderives. unfold top_level. lia.
  - apply IHderives. unfold top_level. lia.
  - intros _. destruct (IHderives1 H) as [G S]. apply IHderives2; auto. lia.
  - intros LV G0 S0. destruct (IHderives1 LV) as [G S].
    destruct (binary_fine _ _ _ e (tloc t) e2 H LV) as [G' S']; auto.
    destruct (t_type t) eqn:K; auto; rewrite <- K; now apply token_at.
  - (* unary *) destruct IHderives as [G S]. split; [|cbn; lia]. apply GE_cons. split; [|kids].
    assert (T : t_type t = unary_token op) by (destruct (t_type t); try discriminate; injection H as <-; reflexivity).
    assert (A := token_at t H1). rewrite T in A. sh.
  - destruct IHderives; auto. split; auto. lia.
  - destruct IHderives1. auto.
  - (* get *) intros G S. apply IHderives; [|cbn; lia]. apply GE_cons. split; [|kids].
    assert (A := token_at t H2). rewrite H in A. sh.
  - intros G S. apply IHderives; [|cbn; lia]. apply GE_cons. split; [|kids; split; auto; constructor]. sh.
  - intros G S. apply IHderives2; [|cbn; lia]. apply GE_cons. split; [|kids]. sh.
  - intros G S. apply IHderives2; [|cbn; lia]. apply GE_cons. split; [|kids].
    assert (A := token_at t H3). rewrite H in A. sh.
  - intros G S. apply IHderives2; [|cbn; lia]. apply GE_cons. split; [|kids]. sh.
  - apply GEs_cons. split; auto. constructor.
  - apply GEs_cons. tauto.
  - split; [|cbn; lia]. apply GE_cons. split; [sh|constructor].
  - split; [|cbn; lia]. apply GE_cons. split; [sh|constructor].
  - split; [|cbn; lia]. apply GE_cons. split; [sh|constructor].
  - split; [|cbn; lia]. apply GE_cons. split; [sh|constructor].
  - split; [|cbn; lia]. apply GE_cons. split; [sh|constructor].
  - split; [|cbn; lia]. apply GE_cons. split; [|constructor].
    assert (T : t_type t = Identifier \/ t_type t = This) by (cbn in H; intuition). sh.
  - destruct IHderives as [G K]. split; [|cbn; lia]. apply GE_cons. split; [sh|].
    cbn [expr_parts tl]. now rewrite map_parts.
  - split; [|cbn; lia]. apply GE_cons. split; [sh; constructor|constructor].
  - destruct IHderives as (G & K & L). split; [|cbn; lia]. apply GE_cons. split; [|kids].
    assert (A := token_at t H1). rewrite H in A. subst l || (rewrite <- L in A). sh.
  - split; [|cbn; lia]. apply GE_cons. split; [sh|kids].
  - destruct IHderives as [G K]. split; [|cbn; lia]. apply GE_cons. split; [sh|].
    cbn [expr_parts tl]. now rewrite map_parts.
  - split; [|cbn; lia]. apply GE_cons. split; [sh|constructor].
  - split; [|cbn; lia]. apply GE_cons. split; [sh|kids].
  - split; [|cbn; lia]. apply GE_cons. split; [|constructor].
    assert (A := token_at t H2). rewrite H in A. sh.
  - apply GEs_cons. split; auto. constructor.
  - apply GEs_cons. split; auto. constructor.
  - apply GEs_cons. tauto.
  - split; constructor.
  - split; [apply GEs_cons; split; auto; constructor|]. constructor; [|constructor]. cbn.
    destruct H as [[K ->]|[K S]]; [left; exists (tloc t), t; auto|right; exists t; auto].
  - destruct IHderives2 as [G2 K2]. split; [apply GEs_cons; tauto|]. constructor; auto. cbn.
    destruct H as [[K ->]|[K S]]; [left; exists (tloc t), t; auto|right; exists t; auto].
  - (* function *) split; [|split; reflexivity]. apply GF_cons. split; [sh|exact IHderives].
  - split; [|split; reflexivity]. apply GF_cons. split; [sh|exact IHderives2].
  - constructor.
  - apply GSs_cons. tauto.
  - (* class *) destruct IHderives as (G & M & A). apply GS_cons. split; [sh|].
    cbn [parts tl class_parts app]. constructor; [sh|exact G].
  - destruct IHderives as (G & M & A). apply GS_cons. split; [sh|].
    cbn [parts tl class_parts app expr_parts]. constructor; [sh|]. constructor; [|exact G].
    match goal with H : at_name toks (t_lexeme s) _ |- _ => destruct H as (t' & I' & K' & L' & E') end. sh.
  - repeat split; constructor.
  - destruct IHderives1 as (G1 & K1 & L1), IHderives2 as (G & M & A). split; [|split].
    + cbn [flat_map]. apply F_app. split; auto. exact (with_kind_parts _ _ G1).
    + constructor; auto. cbn. unfold method_kind. destruct f as [ps fb k0 l0]. cbn.
      destruct (String.eqb_spec (t_lexeme n) "init"); auto.
    + constructor; auto. destruct f as [ps fb k0 l0]. cbn in *. now rewrite L1.
  - destruct IHderives1 as (G1 & K1 & L1), IHderives2 as (G & M & A). split; [|split].
    + cbn [flat_map]. apply F_app. split; auto. exact (with_kind_parts _ _ G1).
    + constructor; auto. destruct f as [ps fb k0 l0]. cbn. auto.
    + constructor; auto. destruct f as [ps fb k0 l0]. cbn in *. now rewrite L1.
  - (* fun *) destruct IHderives as (G1 & K1 & L1). apply GS_cons. split; [|exact G1]. rewrite <- L1 in *. sh.
  - (* var *) apply GS_cons. split; [sh|]. apply (GE_cons ENil). split; [sh|constructor].
  - apply GS_cons. split; [sh|]. kids.
  - tauto.
  - split; [apply GS_cons; split; [sh|kids]|split; reflexivity].
  - split; [apply GS_cons; split; [sh|kids]|split; reflexivity].
  - split; [|split; reflexivity]. apply GS_cons. split; [|kids].
    assert (A := token_at t H1). rewrite H in A. sh.
  - split; [|split; reflexivity]. apply GS_cons. split; [|kids].
    assert (A := token_at t H1). rewrite H in A. sh.
  - split; [apply GS_cons; split; [sh|kids]|split; reflexivity].
  - split; [|split; reflexivity]. apply GS_cons. split; [|kids].
    assert (A := token_at t H2). rewrite H in A. sh.
  - split; [|split; reflexivity]. apply GS_cons. split; [|apply (GE_cons ENil); split; [sh|constructor]].
    assert (A := token_at t H1). rewrite H in A. sh.
  - split; [apply GS_cons; split; [sh|exact IHderives]|split; reflexivity].
  - split; [apply GS_cons; split; [sh|exact IHderives]|split; reflexivity].
  - (* if *) destruct IHderives2 as (G2 & D2 & O2). split; [|split; [reflexivity|intros S; contradiction]].
    apply GS_cons. split; [sh|]. kids.
  - destruct IHderives2 as (G2 & D2 & O2), IHderives3 as (G3 & D3 & O3).
    split; [|split; [reflexivity|exact O3]].
    assert (OI : open_if st = false) by (apply O2; eapply starts_then; eauto; cbn; auto).
    apply GS_cons. split; [sh|]. kids.
  - (* while *) destruct IHderives2 as (G2 & D2 & O2).
    assert (W : exists l, at_kind toks While l).
    { match goal with H : t_type ?t = While |- _ => exists (tloc t), t; auto end. }
    split; [|split; [reflexivity|exact O2]]. apply GS_cons. split; [sh|]. kids.
  - tauto.
  - (* condition *) apply GE_cons. split; [sh|constructor].
  - (* for *) destruct IHderives4 as (G4 & D4 & O4).
    assert (W : exists l, at_kind toks For l).
    { match goal with H : t_type ?t = For |- _ => exists (tloc t), t; auto end. }
    assert (L : GS (match inc with None => SWhile c st | Some e => SWhileIncrement c st e end)).
    { destruct inc as [e|]; apply GS_cons; split; [sh|kids|sh|kids]. }
    split; [|split].
    + unfold for_tree. destruct init as [d|]; auto. apply GS_cons. split; [sh|].
      cbn [parts tl flat_map]. rewrite app_nil_r. apply F_app. split; auto.
    + unfold for_tree. destruct init, inc; reflexivity.
    + intros S. specialize (O4 S). unfold for_tree. destruct init, inc; cbn; auto.
  - constructor.
  - apply GSs_cons. tauto.
Qed.

Theorem program_shaped : forall l r, derives trailing false Program toks (VSs l) r ->
  Forall shaped (program_parts l).
Proof. intros l r H. exact (all_fine _ _ _ _ _ H (incl_refl _)). Qed.
Theorem expression_shaped : forall e r, derives trailing false Expression toks (VE e) r ->
  Forall shaped (expr_parts e).
Proof. intros e r H. exact (all_fine _ _ _ _ _ H (incl_refl _)). Qed.
End Tree.
