(** What can be said of a tree without its places. *)
From Verif Require Import Base F64 Token Ast AstInd Scanner SpecLex SpecTree SpecPrint SpecPlace SpecWrite SpecType FlatExact.
From Coq Require Import Lia.

Definition unplaced_part (p : part) : part :=
  match p with
  | PStmt st => PStmt (unplaced st)
  | PExpr e => PExpr (unplaced_expr e)
  | PClass c => PClass (unplaced_class c)
  | PFun f => PFun (unplaced_fun f)
  end.

Section Walk.
Context {A B C : Type} (f : A -> list B) (u : A -> A) (g : B -> C) (h : A -> list C).
Lemma flat_map_walk l : Forall (fun a => h (u a) = map g (f a)) l -> flat_map h (map u l) = map g (flat_map f l).
Proof. induction 1 as [|a l H F IH]; cbn; [reflexivity|]. now rewrite H, IH, map_app. Qed.
End Walk.

Lemma parts_unplaced :
  (forall st, parts (unplaced st) = map unplaced_part (parts st)) /\
  (forall e, expr_parts (unplaced_expr e) = map unplaced_part (expr_parts e)) /\
  (forall c, class_parts (unplaced_class c) = map unplaced_part (class_parts c)) /\
  (forall f, fun_parts (unplaced_fun f) = map unplaced_part (fun_parts f)).
Proof.
  apply tree_ind; intros; cbn [unplaced unplaced_expr unplaced_class unplaced_fun parts expr_parts class_parts fun_parts map];
    f_equal; auto; rewrite ?map_app; try (f_equal; auto; fail); try (now apply flat_map_walk); auto.
  - f_equal; auto. f_equal; auto. destruct e as [e|]; cbn [Popt option_map] in *; auto.
  - f_equal; auto. f_equal; auto.
  - f_equal; auto. now apply flat_map_walk.
  - apply (flat_map_walk (fun kv => match kv with (_, a) => expr_parts a end)).
    eapply Forall_impl; [|exact H]. intros [k e] E. exact E.
  - f_equal; auto. f_equal; auto.
  - f_equal. { destruct s as [e|]; cbn [Popt option_map] in *; auto. }
    apply (flat_map_walk (fun n => match n with NamedFun _ f => fun_parts f end)).
    eapply Forall_impl; [|exact H0]. intros [m f] E. exact E.
Qed.
Lemma program_parts_unplaced l : program_parts (map unplaced l) = map unplaced_part (program_parts l).
Proof. apply flat_map_walk. apply Forall_forall. intros st _. apply parts_unplaced. Qed.

Lemma strays_unplaced :
  (forall st, strays (unplaced st) = map unplaced (strays st)) /\
  (forall e, expr_strays (unplaced_expr e) = map unplaced (expr_strays e)) /\
  (forall c, class_strays (unplaced_class c) = map unplaced (class_strays c)) /\
  (forall f, fun_strays (unplaced_fun f) = map unplaced (fun_strays f)).
Proof.
  apply tree_ind; intros; cbn [unplaced unplaced_expr unplaced_class unplaced_fun strays expr_strays class_strays fun_strays map];
    auto; rewrite ?map_app; try (f_equal; auto; fail); try (now apply flat_map_walk).
  - f_equal; auto. f_equal; auto. destruct e as [e|]; cbn [Popt option_map] in *; auto.
  - f_equal; auto. now apply flat_map_walk.
  - apply (flat_map_walk (fun kv => match kv with (_, a) => expr_strays a end)).
    eapply Forall_impl; [|exact H]. intros [k e] E. exact E.
  - f_equal; auto. f_equal; auto.
  - f_equal. { destruct s as [e|]; cbn [Popt option_map] in *; auto. }
    apply (flat_map_walk (fun n => match n with NamedFun _ f => fun_strays f end)).
    eapply Forall_impl; [|exact H0]. intros [m f] E. exact E.
Qed.
Lemma strays_none l : loops_enclose (map unplaced l) <-> loops_enclose l.
Proof.
  unfold loops_enclose. rewrite (flat_map_walk strays unplaced unplaced strays).
  - destruct (flat_map strays l); cbn; split; congruence.
  - apply Forall_forall. intros st _. apply strays_unplaced.
Qed.

Lemma strength_unplaced e : strength (unplaced_expr e) = strength e.
Proof. now destruct e. Qed.
Lemma kind_unplaced f : kind (unplaced_fun f) = kind f.
Proof. now destruct f. Qed.
Lemma declaration_unplaced st : is_declaration (unplaced st) = is_declaration st.
Proof. now destruct st. Qed.
Lemma open_if_unplaced : forall st, open_if (unplaced st) = open_if st.
Proof. fix IH 1. intros [b|l|c|l|e|f|c t o|e|e l|x k e l|c b|c b i]; cbn [unplaced open_if]; auto. destruct o as [e|]; cbn [option_map]; auto. Qed.
Lemma loose_unplaced e : loose (unplaced_expr e) = loose e.
Proof. unfold loose. rewrite unplaced_empty. now destruct e. Qed.
Lemma free_unplaced st : free (unplaced st) <-> free st.
Proof. destruct st; cbn [unplaced free]; try tauto. now rewrite loose_unplaced. Qed.
Lemma frees_unplaced l : Forall free (map unplaced l) <-> Forall free l.
Proof. rewrite Forall_map. split; apply Forall_impl; intros st; apply free_unplaced. Qed.
Lemma for_block_unplaced b : for_block (map unplaced b) = for_block b.
Proof. destruct b as [|[] [|[] [|x b]]]; try reflexivity; apply loose_unplaced. Qed.
Lemma open_end_unplaced : forall st, open_end (unplaced st) = open_end st.
Proof.
  fix IH 1. intros [b|l|c|l|e|f|c t o|e|e l|x k e l|c b|c b i]; cbn [unplaced open_end]; auto.
  - destruct b as [|[] [|[] [|x b]]]; try reflexivity; cbn [map unplaced open_end]; now rewrite loose_unplaced, IH.
  - destruct o as [e|]; cbn [option_map]; auto.
Qed.

Lemma fst_unplaced (m : list (string * expr)) :
  map fst (map (fun kv => match kv with (k, e) => (k, unplaced_expr e) end) m) = map fst m.
Proof. induction m as [|[k e] m IH]; cbn; [reflexivity|]. now f_equal. Qed.
Lemma well_formed_part_unplaced p : well_formed_part (unplaced_part p) <-> well_formed_part p.
Proof.
  unfold well_formed_part. destruct p as [st|e|[n s ms l]|[ps b k l]]; cbn [unplaced_part].
  - destruct st as [b|l|c|l|e|f|c t o|e|e l|x k e l|c b|c b i]; cbn [unplaced]; unfold precedence_ok, within_limits, distinct_keys, assigns_name, kinds_ok, superclass_ok,
      unlocated, else_nearest, branches_ok; rewrite ?declaration_unplaced; try tauto.
    + destruct f as [x f]. cbn [unplaced_named]. rewrite kind_unplaced. tauto.
    + destruct o as [e|]; cbn [option_map]; rewrite ?declaration_unplaced, ?open_if_unplaced; tauto.
  - destruct e; cbn [unplaced_expr]; unfold precedence_ok, operands_bind, within_limits, distinct_keys, assigns_name, kinds_ok, superclass_ok,
      unlocated, else_nearest, branches_ok; rewrite ?strength_unplaced, ?map_length, ?fst_unplaced, ?kind_unplaced; try tauto.
  - cbn [unplaced_class]; unfold precedence_ok, within_limits, distinct_keys, assigns_name, kinds_ok, superclass_ok,
      unlocated, else_nearest, branches_ok.
    assert (M : Forall member_ok (map unplaced_named ms) <-> Forall member_ok ms).
    { rewrite Forall_map. split; apply Forall_impl; intros [x f]; cbn [unplaced_named member_ok]; now rewrite kind_unplaced. }
    assert (X : match option_map unplaced_expr s with Some e => exists x v l, e = EVariable x v l | None => True end <->
      match s with Some e => exists x v l, e = EVariable x v l | None => True end).
    { destruct s as [e|]; cbn [option_map]; [|tauto]. split; intros (x & v & l' & E).
      - destruct e; try discriminate. eauto.
      - subst e. cbn. eauto. }
    tauto.
  - cbn [unplaced_fun]; unfold precedence_ok, within_limits, distinct_keys, assigns_name, kinds_ok, superclass_ok,
      unlocated, else_nearest, branches_ok. rewrite map_length. tauto.
Qed.
Lemma settled_part_unplaced p : settled_part (unplaced_part p) <-> settled_part p.
Proof.
  destruct p as [st|e|c|[ps b k l]]; cbn [unplaced_part settled_part]; try tauto.
  - destruct st as [b|l|c|l|e|f|c t o|e|e l|x k e l|c b|c b i]; cbn [unplaced settled_part]; try tauto.
    + rewrite for_block_unplaced, frees_unplaced. tauto.
    + rewrite free_unplaced. destruct o as [e|]; cbn [option_map]; try tauto. rewrite free_unplaced, open_end_unplaced. tauto.
    + apply free_unplaced.
    + apply free_unplaced.
  - apply frees_unplaced.
Qed.
Lemma leaf_unplaced name text number p : leaf name text number (unplaced_part p) <-> leaf name text number p.
Proof.
  destruct p as [st|e|[n s ms l]|[ps b k l]]; cbn [unplaced_part].
  - destruct st as [b|l|c|l|e|f|c t o|e|e l|x k e l|c b|c b i]; cbn [unplaced leaf writable]; try tauto. destruct f. cbn. tauto.
  - destruct e; cbn [unplaced_expr leaf writable]; try tauto. rewrite Forall_map.
    split; apply Forall_impl; intros [k e]; auto.
  - cbn [unplaced_class leaf writable]. rewrite Forall_map.
    assert (M : Forall (fun n => match unplaced_named n with NamedFun m _ => name m end) ms <->
      Forall (fun n => match n with NamedFun m _ => name m end) ms).
    { split; apply Forall_impl; intros [x f]; auto. }
    rewrite M. destruct s as [[]|]; cbn; tauto.
  - cbn [unplaced_fun leaf writable]. rewrite Forall_map. split; apply Forall_impl; auto.
Qed.

Lemma forall_unplaced (P : part -> Prop) l : (forall p, P (unplaced_part p) <-> P p) ->
  Forall P (program_parts (map unplaced l)) <-> Forall P (program_parts l).
Proof. intros H. rewrite program_parts_unplaced, Forall_map. split; apply Forall_impl; intros p; apply H. Qed.
Lemma well_formed_unplaced l : well_formed (map unplaced l) <-> well_formed l.
Proof. unfold well_formed. rewrite strays_none, (forall_unplaced _ _ well_formed_part_unplaced). tauto. Qed.
Lemma settled_unplaced l : settled (map unplaced l) <-> settled l.
Proof. unfold settled. rewrite frees_unplaced, (forall_unplaced _ _ settled_part_unplaced). tauto. Qed.
Lemma leaves_unplaced name text number l :
  Forall (leaf name text number) (program_parts (map unplaced l)) <-> Forall (leaf name text number) (program_parts l).
Proof. apply forall_unplaced, leaf_unplaced. Qed.
