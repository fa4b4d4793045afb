(** Break and continue statements of derivations are in loop bodies. *)
From Verif Require Import Base F64 Token Ast SpecGrammar SpecTree ParseFirst.

Definition named_strays (n : named_fun) : list stmt := match n with NamedFun _ f => fun_strays f end.
Definition entry_strays (kv : string * expr) : list stmt := match kv with (_, e) => expr_strays e end.
Definition val_strays (v : val) : list stmt :=
  match v with
  | VE e | VOE (Some e) => expr_strays e
  | VEs es => flat_map expr_strays es
  | VM m => flat_map entry_strays m
  | VF f => fun_strays f
  | VS st | VO (Some st) => strays st
  | VSs l => flat_map strays l
  | VMs ms => flat_map named_strays ms
  | VPs _ | VO None | VOE None => nil
  end.
Definition keeps (N : sym) (v : val) : Prop :=
  match N with
  | BinaryTail _ e0 | CallTail e0 => expr_strays e0 = nil -> val_strays v = nil
  | _ => val_strays v = nil
  end.
Lemma app_nil : forall A (l l' : list A), l = nil -> l' = nil -> l ++ l' = nil.
Proof. now intros A l l' -> ->. Qed.
Lemma operator_strays : forall n k f e l e2, operator n k = Some f ->
  expr_strays e = nil -> expr_strays e2 = nil -> expr_strays (f e l e2) = nil.
Proof.
  intros n k f e l e2 O P Q.
  assert ((exists op, f = (fun a l b => EBinary a op b l)) \/ (exists lop, f = (fun a _ b => ELogical a lop b)))
    as [[op ->]|[lop ->]].
  { destruct n as [|[|[|[|[|[|n]]]]]], k; cbn in O; try discriminate; injection O as <-; eauto. }
  - now apply app_nil.
  - now apply app_nil.
Qed.
Lemma assigned_strays : forall e e2 l e', assigned e e2 l = Some e' ->
  expr_strays e = nil -> expr_strays e2 = nil -> expr_strays e' = nil.
Proof.
  intros e e2 l e' A P Q. destruct e; try discriminate; cbn in A, P.
  - injection A as <-. now apply app_nil.
  - injection A as <-. apply app_eq_nil in P. cbn. now rewrite (proj1 P), (proj2 P).
  - destruct (String.eqb x "this"); [discriminate|]. now injection A as <-.
Qed.
Lemma with_kind_strays : forall k f, fun_strays (with_kind k f) = fun_strays f.
Proof. now intros k []. Qed.

Lemma all_keep : forall trailing b N i v r, derives trailing b N i v r -> b = false -> keeps N v.
Proof.
  induction 1; intros B; try discriminate; repeat match goal with IH : _ = false -> _ |- _ => specialize (IH B) end;
    cbn [keeps val_strays flat_map] in *; auto;
    try (cbn [expr_strays strays fun_strays class_strays named_strays entry_strays];
         rewrite ?with_kind_strays; repeat apply app_nil; auto; fail).
  - eapply assigned_strays; eauto.
  - intros P. apply IHderives2. eapply operator_strays; eauto.
  - intros P. apply IHderives. cbn [expr_strays]. auto using app_nil.
  - intros P. apply IHderives2. cbn [expr_strays]. auto using app_nil.
  - intros P. apply IHderives2. cbn [expr_strays]. auto using app_nil.
  - intros P. apply IHderives2. cbn [expr_strays]. auto using app_nil.
  - (* for *) unfold for_tree. destruct init as [d|], inc as [e|]; cbn [strays flat_map];
      repeat apply app_nil; auto.
Qed.

Theorem loops_ok : forall trailing toks l r, derives trailing false Program toks (VSs l) r ->
  loops_enclose l.
Proof. intros trailing toks l r H. exact (all_keep _ _ _ _ _ _ H eq_refl). Qed.
