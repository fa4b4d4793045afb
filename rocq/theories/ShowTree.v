(** Rendered programs determine the program. *)
From Verif Require Import Base F64 Token Ast AstInd SpecTree SpecShow Show ShowFacts.
Local Open Scope string_scope.

(** ** Lists *)
Lemma map_inj_on {A B} (C : A -> Prop) (f : A -> B) : forall l l',
  Forall (fun x => forall y, C x -> C y -> f x = f y -> x = y) l ->
  Forall C l -> Forall C l' -> map f l = map f l' -> l = l'.
Proof.
  induction l as [|x l IH]; destruct l' as [|y l']; cbn; intros H Cl Cl' E; try discriminate; auto.
  inversion H; inversion Cl; inversion Cl'; subst. injection E as E1 E2. f_equal; auto.
Qed.
Lemma dlist_inj : forall l l', dlist l = dlist l' -> l = l'.
Proof.
  intros [|x l] [|y l'] E; try discriminate; auto. cbn in E. injection E as -> E.
  f_equal. revert l' E. induction l as [|a l IH]; destruct l' as [|b l']; cbn; intros E; try discriminate; auto.
  injection E as -> E. f_equal; auto.
Qed.
Lemma dmap_inj : forall l l', dmap l = dmap l' -> l = l'.
Proof.
  assert (M : forall l l' : list (string * doc), map (fun f => (Key (fst f), snd f)) l =
              map (fun f => (Key (fst f), snd f)) l' -> l = l').
  { induction l as [|[k a] l IH]; destruct l' as [|[k' b] l']; cbn; intros E; try discriminate; auto.
    injection E as -> -> E. f_equal; auto. }
  intros [|x l] [|y l'] E; try discriminate; auto. apply M.
  unfold dmap in E. injection E as E1 E2 E3. cbn [map]. congruence.
Qed.

(** ** Names *)
Lemma fun_type_inj : forall a b, fun_type_name a = fun_type_name b -> a = b.
Proof. intros [] []; cbn; congruence. Qed.
Lemma unary_inj : forall a b, unary_name a = unary_name b -> a = b.
Proof. intros [] []; cbn; congruence. Qed.
Lemma binary_inj : forall a b, binary_name a = binary_name b -> a = b.
Proof. intros [] []; cbn; congruence. Qed.
Lemma logical_inj : forall a b, logical_name a = logical_name b -> a = b.
Proof. intros [] []; cbn; congruence. Qed.
Lemma bool_inj : forall a b, bool_name a = bool_name b -> a = b.
Proof. intros [] []; cbn; congruence. Qed.

Lemma dparams_inj : forall a b, map dparam a = map dparam b -> a = b.
Proof.
  induction a as [|[n [l c]] a IH]; destruct b as [|[n' [l' c']] b]; cbn; intros E; try discriminate; auto.
  injection E as -> E1 E2 E. apply decimal_inj in E1, E2. subst. f_equal; auto.
Qed.
Lemma doption_inj {A} (C : A -> Prop) (f : A -> doc) : forall o o',
  Popt (fun x => forall y, C x -> C y -> f x = f y -> x = y) o -> Popt C o -> Popt C o' ->
  doption f o = doption f o' -> o = o'.
Proof.
  intros [a|] [b|] H Ca Cb E; try discriminate; auto. cbn in *. injection E as E. f_equal. auto.
Qed.

Definition fine_expr (e : expr) : Prop := Forall literal_part (expr_parts e).
Definition fine (st : stmt) : Prop := Forall literal_part (parts st).
Definition fine_class (c : class_def) : Prop := Forall literal_part (class_parts c).
Definition fine_fun (f : fun_def) : Prop := Forall literal_part (fun_parts f).
Definition fine_named (n : named_fun) : Prop := match n with NamedFun _ f => fine_fun f end.

Lemma fine_list : forall l, Forall literal_part (flat_map parts l) <-> Forall fine l.
Proof. intros. apply Forall_flat_map. Qed.
Lemma fine_exprs : forall l, Forall literal_part (flat_map expr_parts l) <-> Forall fine_expr l.
Proof. intros. apply Forall_flat_map. Qed.
Lemma fine_entries : forall m : list (string * expr),
  Forall literal_part (flat_map (fun kv => match kv with (_, a) => expr_parts a end) m) <->
  Forall (fun kv => fine_expr (snd kv)) m.
Proof.
  intros m. rewrite Forall_flat_map. split; intros H; refine (Forall_impl _ _ H); intros [k e]; auto.
Qed.
Lemma fine_methods : forall m,
  Forall literal_part (flat_map (fun n => match n with NamedFun _ f => fun_parts f end) m) <->
  Forall fine_named m.
Proof.
  intros m. rewrite Forall_flat_map. split; intros H; refine (Forall_impl _ _ H); intros [k e]; auto.
Qed.
Lemma fine_opt : forall o, Forall literal_part (match o with Some e => parts e | None => nil end) <-> Popt fine o.
Proof. intros [st|]; cbn; split; auto. Qed.
Lemma fine_opt_expr : forall o, Forall literal_part (match o with Some e => expr_parts e | None => nil end) <-> Popt fine_expr o.
Proof. intros [st|]; cbn; split; auto. Qed.

Ltac opens :=
  repeat match goal with
  | H : fine (_ ?x) |- _ => unfold fine in H; cbn [parts] in H
  | H : fine (_ ?x ?y) |- _ => unfold fine in H; cbn [parts] in H
  | H : fine (_ ?x ?y ?z) |- _ => unfold fine in H; cbn [parts] in H
  | H : fine (_ ?x ?y ?z ?w) |- _ => unfold fine in H; cbn [parts] in H
  | H : fine_expr ENil |- _ => clear H
  | H : fine_expr (_ ?x) |- _ => unfold fine_expr in H; cbn [expr_parts] in H
  | H : fine_expr (_ ?x ?y) |- _ => unfold fine_expr in H; cbn [expr_parts] in H
  | H : fine_expr (_ ?x ?y ?z) |- _ => unfold fine_expr in H; cbn [expr_parts] in H
  | H : fine_expr (_ ?x ?y ?z ?w) |- _ => unfold fine_expr in H; cbn [expr_parts] in H
  | H : fine_class (_ ?x ?y ?z ?w) |- _ => unfold fine_class in H; cbn [class_parts] in H
  | H : fine_fun (_ ?x ?y ?z ?w) |- _ => unfold fine_fun in H; cbn [fun_parts] in H
  | H : Forall _ (_ :: _) |- _ => rewrite Forall_cons_iff in H; destruct H
  | H : Forall _ (_ ++ _)%list |- _ => rewrite Forall_app in H; destruct H
  | H : Forall _ (expr_parts ?e) |- _ => change (fine_expr e) in H
  | H : Forall _ (parts ?e) |- _ => change (fine e) in H
  | H : Forall _ (class_parts ?e) |- _ => change (fine_class e) in H
  | H : Forall _ (fun_parts ?e) |- _ => change (fine_fun e) in H
  end;
  repeat match goal with
  | H : Forall literal_part (flat_map parts _) |- _ => apply fine_list in H
  | H : Forall literal_part (flat_map expr_parts _) |- _ => apply fine_exprs in H
  | H : Forall literal_part (flat_map (fun kv => match kv with (_, a) => expr_parts a end) _) |- _ => apply fine_entries in H
  | H : Forall literal_part (flat_map _ ?l) |- _ => first [apply fine_entries in H | apply fine_methods in H]
  | H : Forall literal_part (match _ with Some e => parts e | None => nil end) |- _ => apply fine_opt in H
  | H : Forall literal_part (match _ with Some e => expr_parts e | None => nil end) |- _ => apply fine_opt_expr in H
  end.
Ltac records :=
  repeat match goal with
  | l : source_loc |- _ => destruct l
  | l : var_loc |- _ => destruct l
  | l : slot_index |- _ => destruct l
  | l : named_fun |- _ => destruct l
  end.
Ltac names :=
  repeat match goal with
  | H : decimal _ = decimal _ |- _ => apply decimal_inj in H; cbn [loc_line loc_column slot distance index] in H; subst
  | H : binary_name _ = binary_name _ |- _ => apply binary_inj in H; subst
  | H : unary_name _ = unary_name _ |- _ => apply unary_inj in H; subst
  | H : logical_name _ = logical_name _ |- _ => apply logical_inj in H; subst
  | H : bool_name _ = bool_name _ |- _ => apply bool_inj in H; subst
  | H : fun_type_name _ = fun_type_name _ |- _ => apply fun_type_inj in H; subst
  | H : dlist _ = dlist _ |- _ => apply dlist_inj in H
  | H : dmap _ = dmap _ |- _ => apply dmap_inj in H
  | H : map dparam _ = map dparam _ |- _ => apply dparams_inj in H; subst
  end.

Section Debug.
Variable F : formats.
Hypothesis NI : forall x y, literal x -> literal y -> f_num F x = f_num F y -> x = y.

Definition inj_stmt (a : stmt) : Prop := forall b, fine a -> fine b -> dstmt F a = dstmt F b -> a = b.
Definition inj_expr (a : expr) : Prop := forall b, fine_expr a -> fine_expr b -> dexpr F a = dexpr F b -> a = b.
Definition inj_class (a : class_def) : Prop := forall b, fine_class a -> fine_class b -> dclass F a = dclass F b -> a = b.
Definition inj_fun (a : fun_def) : Prop := forall b, fine_fun a -> fine_fun b -> dfun F a = dfun F b -> a = b.

Lemma named_inj : forall ms ms', Forall (Pn inj_fun) ms -> Forall fine_named ms -> Forall fine_named ms' ->
  map (dnamed F) ms = map (dnamed F) ms' -> ms = ms'.
Proof.
  intros ms ms' H. apply map_inj_on. refine (Forall_impl _ _ H). intros [n f] Hf [n' f'] C C' E.
  cbn in *. injection E as -> E. f_equal. auto.
Qed.

Lemma entries_inj : forall m m' : list (string * expr), Forall (fun kv => inj_expr (snd kv)) m ->
  Forall (fun kv => fine_expr (snd kv)) m -> Forall (fun kv => fine_expr (snd kv)) m' ->
  map (fun kv => match kv with (k, e) => (k, dexpr F e) end) m =
  map (fun kv => match kv with (k, e) => (k, dexpr F e) end) m' -> m = m'.
Proof.
  intros m m' H. apply map_inj_on. refine (Forall_impl _ _ H). intros [n f] Hf [n' f'] C C' E.
  cbn in *. injection E as -> E. f_equal. auto.
Qed.

Lemma debug_trees : (forall a, inj_stmt a) /\ (forall a, inj_expr a) /\ (forall a, inj_class a) /\ (forall a, inj_fun a).
Proof.
  apply tree_ind; intros;
    match goal with |- ?I _ => unfold I end; intros other C C' E; destruct other; try discriminate E.
  all: cbn [dstmt dexpr dclass dfun dnamed] in E; records.
  all: try (injection E; clear E; intros); names; opens; f_equal; auto.
  all: try match goal with X : Forall _ ?l |- ?l = _ => apply (map_inj_on _ _ _ _ X); assumption end.
  - subst. f_equal. apply H; assumption.
  - eapply doption_inj; eauto.
  - apply entries_inj; assumption.
  - eapply doption_inj; eauto.
  - apply named_inj; assumption.
Qed.
Lemma dstmts_inj : forall a b, literals a -> literals b ->
  map (dstmt F) a = map (dstmt F) b -> a = b.
Proof.
  intros a b A B. apply (map_inj_on fine).
  - apply Forall_forall. intros x _. apply debug_trees.
  - apply fine_list, A.
  - apply fine_list, B.
Qed.

(** *** Readability *)
Hypothesis NP : forall x, literal x -> plain (f_num F x) = true.
Lemma dlist_readable : forall l, forallb readable l = true -> readable (dlist l) = true.
Proof.
  intros [|x l] H; auto. cbn [dlist readable]. apply andb_true_intro. split; auto.
  rewrite forallb_forall in *. intros [lab d] X. apply in_map_iff in X. destruct X as (y & E & X).
  injection E as <- <-. cbn. auto.
Qed.
Lemma dmap_readable : forall l, forallb (fun kv => readable (snd kv)) l = true -> readable (dmap l) = true.
Proof.
  intros [|x l] H; auto. unfold dmap. cbn [readable]. apply andb_true_intro. split; auto.
  rewrite forallb_forall in *. intros [lab d] X. apply in_map_iff in X. destruct X as ([k y] & E & X).
  injection E as <- <-. cbn. apply H in X. exact X.
Qed.
Lemma forallb_map {A B} (f : A -> B) (g : B -> bool) : forall l,
  forallb g (map f l) = forallb (fun x => g (f x)) l.
Proof. induction l; cbn; congruence. Qed.
Lemma forallb_on {A} (C : A -> Prop) (g : A -> bool) : forall l,
  Forall (fun x => C x -> g x = true) l -> Forall C l -> forallb g l = true.
Proof. induction 1; cbn; auto. inversion 1; subst. rewrite H by assumption. auto. Qed.
Lemma doption_readable {A} (C : A -> Prop) (f : A -> doc) : forall o,
  Popt (fun x => C x -> readable (f x) = true) o -> Popt C o -> readable (doption f o) = true.
Proof. intros [a|] H C'; cbn in *; auto. rewrite H; auto. Qed.
Lemma dparams_readable : forall l, forallb readable (map dparam l) = true.
Proof. induction l as [|[n [a b]] l IH]; cbn; rewrite ?decimal_plain; auto. Qed.

Ltac reads :=
  repeat match goal with
  | |- andb _ _ = true => apply andb_true_intro; split
  | |- plain (decimal _) = true => apply decimal_plain
  | |- plain (f_num F _) = true => apply NP
  | |- plain (_ ?op) = true => destruct op; reflexivity
  | |- readable (dlist _) = true => apply dlist_readable
  | |- readable (dmap _) = true => apply dmap_readable
  | |- forallb readable (map dparam _) = true => apply dparams_readable
  | |- forallb _ (map _ _) = true => rewrite forallb_map
  end.
Lemma trees_readable :
  (forall a, fine a -> readable (dstmt F a) = true) /\
  (forall a, fine_expr a -> readable (dexpr F a) = true) /\
  (forall a, fine_class a -> readable (dclass F a) = true) /\
  (forall a, fine_fun a -> readable (dfun F a) = true).
Proof.
  apply (tree_ind (fun a => fine a -> readable (dstmt F a) = true)
                  (fun a => fine_expr a -> readable (dexpr F a) = true)
                  (fun a => fine_class a -> readable (dclass F a) = true)
                  (fun a => fine_fun a -> readable (dfun F a) = true)); intros; records;
    opens; cbn -[readable decimal plain dlist dmap doption]; cbn -[decimal plain dlist dmap doption]; reads; auto.
  all: try match goal with X : Forall _ ?l |- forallb _ ?l = true => apply (forallb_on _ _ _ X); assumption end.
  all: try (eapply doption_readable; eauto; fail).
  - eapply forallb_on; [|eassumption]. refine (Forall_impl _ _ H). intros [k e]. cbn. auto.
  - eapply forallb_on; [|eassumption]. refine (Forall_impl _ _ H0). intros [k e] X Y. cbn in *. reads; [exact (X Y)|reflexivity].
Qed.
End Debug.

Theorem debug_program_inj : forall F a b,
  quoting (f_str F) ->
  (forall x, literal x -> plain (f_num F x) = true) ->
  (forall x y, literal x -> literal y -> f_num F x = f_num F y -> x = y) ->
  literals a -> literals b -> debug_program F a = debug_program F b -> a = b.
Proof.
  intros F a b Q NP NI A B E. unfold debug_program in E. apply debug_inj in E; auto.
  - apply dlist_inj in E. revert E. apply dstmts_inj; auto.
  - apply dlist_readable. rewrite forallb_map. apply forallb_on with (C := fine).
    + apply Forall_forall. intros x _. apply trees_readable, NP.
    + apply fine_list, A.
  - apply dlist_readable. rewrite forallb_map. apply forallb_on with (C := fine).
    + apply Forall_forall. intros x _. apply trees_readable, NP.
    + apply fine_list, B.
Qed.
