(** The JavaScript value of a program determines it; the text shown in the
    page determines it up to its booleans. *)
From Verif Require Import Base F64 Token Ast AstInd SpecTree SpecShow Show ShowFacts ShowTree.
Local Open Scope string_scope.

(** ** The value *)
Definition vinj_stmt (a : stmt) : Prop := forall b, jstmt a = jstmt b -> a = b.
Definition vinj_expr (a : expr) : Prop := forall b, jexpr a = jexpr b -> a = b.
Definition vinj_class (a : class_def) : Prop := forall b, jclass a = jclass b -> a = b.
Definition vinj_fun (a : fun_def) : Prop := forall b, jfun a = jfun b -> a = b.

Lemma map_inj_all {A B} (f : A -> B) : forall l l',
  Forall (fun x => forall y, f x = f y -> x = y) l -> map f l = map f l' -> l = l'.
Proof.
  intros l l' H. apply (map_inj_on (fun _ => True)).
  - refine (Forall_impl _ _ H). auto.
  - apply Forall_forall. auto.
  - apply Forall_forall. auto.
Qed.
Lemma jopt_stmt : forall o o', Popt vinj_stmt o -> jopt jstmt o = jopt jstmt o' -> o = o'.
Proof.
  intros [a|] [b|] H E; auto; cbn [jopt] in E.
  - f_equal. auto.
  - destruct a; discriminate E.
  - destruct b; discriminate E.
Qed.
Lemma jopt_expr : forall o o', Popt vinj_expr o -> jopt jexpr o = jopt jexpr o' -> o = o'.
Proof.
  intros [a|] [b|] H E; auto; cbn [jopt] in E.
  - f_equal. auto.
  - destruct a; discriminate E.
  - destruct b; discriminate E.
Qed.
Lemma jparams_inj : forall a b, map jparam a = map jparam b -> a = b.
Proof.
  induction a as [|[n [l c]] a IH]; destruct b as [|[n' [l' c']] b]; cbn; intros E; try discriminate; auto.
  injection E as -> -> -> E. f_equal; auto.
Qed.
Lemma jentries_inj : forall m m' : list (string * expr), Forall (fun kv => vinj_expr (snd kv)) m ->
  map (fun kv => match kv with (k, e) => (k, jexpr e) end) m =
  map (fun kv => match kv with (k, e) => (k, jexpr e) end) m' -> m = m'.
Proof.
  intros m m' H. apply map_inj_all. refine (Forall_impl _ _ H). intros [n f] Hf [n' f'] E.
  cbn in *. injection E as -> E. f_equal. auto.
Qed.
Lemma jnamed_inj : forall ms ms', Forall (Pn vinj_fun) ms -> map jnamed ms = map jnamed ms' -> ms = ms'.
Proof.
  intros ms ms' H. apply map_inj_all. refine (Forall_impl _ _ H). intros [n f] Hf [n' f'] E.
  cbn in *. injection E as -> E. f_equal. auto.
Qed.
Lemma value_trees : (forall a, vinj_stmt a) /\ (forall a, vinj_expr a) /\
  (forall a, vinj_class a) /\ (forall a, vinj_fun a).
Proof.
  apply tree_ind; intros;
    match goal with |- ?I _ => unfold I end; intros other E; destruct other; try discriminate E.
  all: cbn [jstmt jexpr jclass jfun jnamed] in E; records.
  all: try (injection E; clear E; intros); names; subst; f_equal; auto.
  all: try match goal with X : Forall _ ?l |- ?l = _ => apply (map_inj_all _ _ _ X); assumption end.
  - f_equal. apply H; assumption.
  - apply jopt_stmt; assumption.
  - apply jentries_inj; assumption.
  - apply jopt_expr; assumption.
  - apply jnamed_inj; assumption.
  - apply jparams_inj; assumption.
Qed.
Theorem jstmts_inj : forall a b, JArray (map jstmt a) = JArray (map jstmt b) -> a = b.
Proof.
  intros a b E. injection E as E. revert E. apply map_inj_all.
  apply Forall_forall. intros x _. apply value_trees.
Qed.

(** ** The text *)
Section Text.
Variable F : formats.

Fixpoint jdoc (v : js) : doc :=
  match v with
  | JUndefined => Word "undefined"
  | JBool _ => Node "{" nil "}"
  | JInt n => Word (decimal n)
  | JNumber x => Word (f_js F x)
  | JString s => Text s
  | JArray l => Node "[" (map (fun x => (NoLabel, jdoc x)) l) "]"
  | JObject l | JMap l =>
    Node "{" (map (fun kv => match kv with (k, x) => (Key k, jdoc x) end) l) "}"
  end.

Section JsInd.
Variable P : js -> Prop.
Hypothesis H1 : P JUndefined.
Hypothesis H2 : forall b, P (JBool b).
Hypothesis H3 : forall n, P (JInt n).
Hypothesis H4 : forall x, P (JNumber x).
Hypothesis H5 : forall s, P (JString s).
Hypothesis H6 : forall l, Forall P l -> P (JArray l).
Hypothesis H7 : forall l, Forall (fun kv => P (snd kv)) l -> P (JObject l).
Hypothesis H8 : forall l, Forall (fun kv => P (snd kv)) l -> P (JMap l).
Fixpoint js_tree (v : js) : P v :=
  let fields := fix go l : Forall (fun kv => P (snd kv)) l :=
    match l with
    | nil => Forall_nil _
    | kv :: r => Forall_cons kv (js_tree (snd kv)) (go r)
    end in
  match v with
  | JUndefined => H1
  | JBool b => H2 b
  | JInt n => H3 n
  | JNumber x => H4 x
  | JString s => H5 s
  | JArray l => H6 l ((fix go l : Forall P l :=
                         match l with
                         | nil => Forall_nil _
                         | x :: r => Forall_cons x (js_tree x) (go r)
                         end) l)
  | JObject l => H7 l (fields l)
  | JMap l => H8 l (fields l)
  end.
End JsInd.

Lemma pretty_layout : forall v prefix, pretty F v prefix = layout (jdoc v) prefix.
Proof.
  apply (js_tree (fun v => forall prefix, pretty F v prefix = layout (jdoc v) prefix)); intros; auto;
    cbn [pretty layout jdoc]; rewrite map_map; do 4 f_equal.
  - induction H; cbn [map cat]; auto. rewrite H, IHForall. reflexivity.
  - induction H; cbn [map cat]; auto. destruct x as [k x]. cbn [snd] in H. rewrite H, IHForall.
    cbn [show_label]. norm. reflexivity.
  - induction H; cbn [map cat]; auto. destruct x as [k x]. cbn [snd] in H. rewrite H, IHForall.
    cbn [show_label]. norm. reflexivity.
Qed.
Lemma jdoc_keyed : forall v, keyed (jdoc v) = true.
Proof.
  apply js_tree; intros; auto; cbn [jdoc keyed]; rewrite forallb_map, forallb_forall;
    rewrite Forall_forall in H.
  - intros x X. rewrite (H x X). reflexivity.
  - intros [k x] X. exact (H (k, x) X).
  - intros [k x] X. exact (H (k, x) X).
Qed.

(** *** Up to booleans *)
Hypothesis NI : forall x y, literal x -> literal y -> f_js F x = f_js F y -> x = y.

Lemma list_blur {A} (C : A -> Prop) (f : A -> js) (h : A -> A) : forall l l',
  Forall (fun x => forall y, C x -> C y -> jdoc (f x) = jdoc (f y) -> h x = h y) l ->
  Forall C l -> Forall C l' ->
  map (fun v => (NoLabel, jdoc v)) (map f l) = map (fun v => (NoLabel, jdoc v)) (map f l') ->
  map h l = map h l'.
Proof.
  induction l as [|x l IH]; destruct l' as [|y l']; cbn [map]; intros H Cl Cl' E; try discriminate; auto.
  inversion H; inversion Cl; inversion Cl'; subst. injection E as E1 E2. f_equal; auto.
Qed.
Definition binj_stmt (a : stmt) : Prop := forall b, fine a -> fine b ->
  jdoc (jstmt a) = jdoc (jstmt b) -> blur a = blur b.
Definition binj_expr (a : expr) : Prop := forall b, fine_expr a -> fine_expr b ->
  jdoc (jexpr a) = jdoc (jexpr b) -> blur_expr a = blur_expr b.
Definition binj_class (a : class_def) : Prop := forall b, fine_class a -> fine_class b ->
  jdoc (jclass a) = jdoc (jclass b) -> blur_class a = blur_class b.
Definition binj_fun (a : fun_def) : Prop := forall b, fine_fun a -> fine_fun b ->
  jdoc (jfun a) = jdoc (jfun b) -> blur_fun a = blur_fun b.

Lemma jopt_stmt_blur : forall o o', Popt binj_stmt o -> Popt fine o -> Popt fine o' ->
  jdoc (jopt jstmt o) = jdoc (jopt jstmt o') -> option_map blur o = option_map blur o'.
Proof.
  intros [a|] [b|] H C C' E; auto; cbn [jopt option_map Popt] in *.
  - f_equal. auto.
  - destruct a; discriminate E.
  - destruct b; discriminate E.
Qed.
Lemma jopt_expr_blur : forall o o', Popt binj_expr o -> Popt fine_expr o -> Popt fine_expr o' ->
  jdoc (jopt jexpr o) = jdoc (jopt jexpr o') -> option_map blur_expr o = option_map blur_expr o'.
Proof.
  intros [a|] [b|] H C C' E; auto; cbn [jopt option_map Popt] in *.
  - f_equal. auto.
  - destruct a; discriminate E.
  - destruct b; discriminate E.
Qed.
Lemma jparams_blur : forall a b,
  map (fun v => (NoLabel, jdoc v)) (map jparam a) = map (fun v => (NoLabel, jdoc v)) (map jparam b) -> a = b.
Proof.
  induction a as [|[n [l c]] a IH]; destruct b as [|[n' [l' c']] b]; cbn; intros E; try discriminate; auto.
  injection E as -> E1 E2 E. apply decimal_inj in E1, E2. subst. f_equal; auto.
Qed.
Lemma jentries_blur : forall m m' : list (string * expr), Forall (fun kv => binj_expr (snd kv)) m ->
  Forall (fun kv => fine_expr (snd kv)) m -> Forall (fun kv => fine_expr (snd kv)) m' ->
  map (fun kv => match kv with (k, x) => (Key k, jdoc x) end)
      (map (fun kv => match kv with (k, e) => (k, jexpr e) end) m) =
  map (fun kv => match kv with (k, x) => (Key k, jdoc x) end)
      (map (fun kv => match kv with (k, e) => (k, jexpr e) end) m') ->
  map (fun kv => match kv with (k, e) => (k, blur_expr e) end) m =
  map (fun kv => match kv with (k, e) => (k, blur_expr e) end) m'.
Proof.
  induction m as [|[k x] m IH]; destruct m' as [|[k' y] m']; cbn [map]; intros H C C' E; try discriminate; auto.
  inversion H; inversion C; inversion C'; subst. injection E as -> E1 E2. cbn [snd] in *.
  f_equal; auto. f_equal. auto.
Qed.
Lemma jnamed_blur : forall ms ms', Forall (Pn binj_fun) ms -> Forall fine_named ms -> Forall fine_named ms' ->
  map (fun v => (NoLabel, jdoc v)) (map jnamed ms) = map (fun v => (NoLabel, jdoc v)) (map jnamed ms') ->
  map blur_named ms = map blur_named ms'.
Proof.
  intros ms ms' H. apply list_blur. refine (Forall_impl _ _ H). intros [n f] Hf [n' f'] C C' E.
  cbn [jnamed jdoc map] in E. injection E as -> E. cbn [blur_named]. f_equal. auto.
Qed.
Lemma blur_trees : (forall a, binj_stmt a) /\ (forall a, binj_expr a) /\
  (forall a, binj_class a) /\ (forall a, binj_fun a).
Proof.
  apply tree_ind; intros;
    match goal with |- ?I _ => unfold I end; intros other C C' E; destruct other; try discriminate E.
  all: cbn [jstmt jexpr jclass jfun jnamed] in E; records.
  all: try (injection E; clear E; intros); names; subst; opens;
       cbn [blur blur_expr blur_class blur_named blur_fun]; f_equal; auto.
  all: try match goal with X : Forall _ ?l |- map _ ?l = _ => apply (list_blur _ _ _ _ _ X); assumption end.
  - f_equal. apply H; assumption.
  - apply jopt_stmt_blur; assumption.
  - apply jentries_blur; assumption.
  - apply jopt_expr_blur; assumption.
  - apply jnamed_blur; assumption.
  - apply jparams_blur; assumption.
Qed.

(** The other way: the text does not depend on booleans. *)
Lemma jdoc_blur :
  (forall a, jdoc (jstmt (blur a)) = jdoc (jstmt a)) /\
  (forall a, jdoc (jexpr (blur_expr a)) = jdoc (jexpr a)) /\
  (forall a, jdoc (jclass (blur_class a)) = jdoc (jclass a)) /\
  (forall a, jdoc (jfun (blur_fun a)) = jdoc (jfun a)).
Proof.
  assert (L : forall A (f : A -> js) (h : A -> A) l, Forall (fun x => jdoc (f (h x)) = jdoc (f x)) l ->
    map (fun v => (NoLabel, jdoc v)) (map f (map h l)) = map (fun v => (NoLabel, jdoc v)) (map f l)).
  { intros A f h l H. induction H; cbn [map]; congruence. }
  apply (tree_ind (fun a => jdoc (jstmt (blur a)) = jdoc (jstmt a))
                  (fun a => jdoc (jexpr (blur_expr a)) = jdoc (jexpr a))
                  (fun a => jdoc (jclass (blur_class a)) = jdoc (jclass a))
                  (fun a => jdoc (jfun (blur_fun a)) = jdoc (jfun a))); intros;
    cbn [blur blur_expr blur_class blur_named blur_fun jstmt jexpr jclass jnamed jfun];
    unfold tagged; cbn [jdoc map]; rewrite ?H, ?H0, ?H1, ?L by assumption; try reflexivity.
  - destruct e; cbn in *; congruence.
  - do 5 f_equal. rewrite !map_map. apply map_ext_in. intros [k e] X.
    rewrite Forall_forall in H. f_equal. exact (H _ X).
  - assert (X : jdoc (jopt jexpr (option_map blur_expr s)) = jdoc (jopt jexpr s)).
    { destruct s; cbn in *; congruence. }
    rewrite X, L; auto. refine (Forall_impl _ _ H0). intros [k f] Y.
    cbn [Pn blur_named jnamed jdoc map] in *. rewrite Y. reflexivity.
Qed.

Hypothesis NP : forall x, literal x -> plain (f_js F x) = true.
Lemma array_readable {A} (C : A -> Prop) (f : A -> js) : forall l,
  Forall (fun x => C x -> readable (jdoc (f x)) = true) l -> Forall C l ->
  forallb (fun i => match i with (l, x) => label_ok l && readable x end)
          (map (fun v => (NoLabel, jdoc v)) (map f l)) = true.
Proof.
  induction 1; cbn [map forallb]; auto. inversion 1; subst. rewrite H by assumption. cbn. auto.
Qed.
Lemma jloc_readable : forall l, readable (jdoc (jloc l)) = true.
Proof. intros [a b]. cbn. rewrite !decimal_plain. reflexivity. Qed.
Lemma jvar_readable : forall l, readable (jdoc (jvar l)) = true.
Proof. intros [a b]. cbn. rewrite !decimal_plain. reflexivity. Qed.
Lemma jslot_readable : forall l, readable (jdoc (jslot l)) = true.
Proof. intros [a]. cbn. apply decimal_plain. Qed.
Lemma jopt_readable {A} (C : A -> Prop) (f : A -> js) : forall o,
  Popt (fun x => C x -> readable (jdoc (f x)) = true) o -> Popt C o ->
  readable (jdoc (jopt f o)) = true.
Proof. intros [a|] H C'; cbn in *; auto. Qed.
Lemma js_readable :
  (forall a, fine a -> readable (jdoc (jstmt a)) = true) /\
  (forall a, fine_expr a -> readable (jdoc (jexpr a)) = true) /\
  (forall a, fine_class a -> readable (jdoc (jclass a)) = true) /\
  (forall a, fine_fun a -> readable (jdoc (jfun a)) = true).
Proof.
  apply (tree_ind (fun a => fine a -> readable (jdoc (jstmt a)) = true)
                  (fun a => fine_expr a -> readable (jdoc (jexpr a)) = true)
                  (fun a => fine_class a -> readable (jdoc (jclass a)) = true)
                  (fun a => fine_fun a -> readable (jdoc (jfun a)) = true)); intros; opens;
    cbn [jstmt jexpr jclass jnamed jfun]; unfold tagged; cbn [jdoc map readable forallb label_ok andb plain closing_ok];
    rewrite ?H, ?H0, ?H1, ?jloc_readable, ?jvar_readable, ?jslot_readable by assumption; cbn [andb]; try reflexivity.
  all: try match goal with X : Forall _ ?l |- context [map _ ?l] =>
      rewrite (array_readable _ _ _ X) by assumption; reflexivity end.
  - erewrite jopt_readable; [reflexivity|exact H1|assumption].
  - assert (X : forallb (fun i => match i with (l, x) => label_ok l && readable x end)
      (map (fun kv => match kv with (k, x) => (Key k, jdoc x) end)
           (map (fun kv => match kv with (k, e) => (k, jexpr e) end) m)) = true).
    { clear H0. revert H1. induction H; cbn [map forallb]; auto. inversion 1; subst. destruct x as [k e].
      cbn [label_ok andb snd] in *. rewrite H by assumption. cbn [andb]. auto. }
    rewrite X. reflexivity.
  - cbn in H0. rewrite NP by assumption. reflexivity.
  - erewrite jopt_readable; [|exact H|assumption]. cbn [andb].
    rewrite (array_readable fine_named); auto. refine (Forall_impl _ _ H0). intros [k f] X Y.
    cbn in *. rewrite (X Y). reflexivity.
  - assert (X : forallb (fun i => match i with (l, x) => label_ok l && readable x end)
      (map (fun v => (NoLabel, jdoc v)) (map jparam ps)) = true).
    { clear. induction ps as [|[n [a b]] ps IH]; cbn; rewrite ?decimal_plain; auto. }
    rewrite X, (array_readable _ _ _ H) by assumption. reflexivity.
Qed.

Theorem display_inj : forall a b, literals a -> literals b ->
  (display F (JArray (map jstmt a)) = display F (JArray (map jstmt b)) <-> map blur a = map blur b).
Proof.
  intros a b A B. unfold display. rewrite !pretty_layout. split.
  - intros E. apply layout_inj in E; auto using jdoc_keyed.
    + cbn [jdoc] in E. injection E as E. revert E. apply list_blur with (C := fine).
      * apply Forall_forall. intros x _. apply blur_trees.
      * apply fine_list, A.
      * apply fine_list, B.
    + cbn [jdoc readable]. rewrite (array_readable fine); auto.
      * apply Forall_forall. intros x _. apply js_readable.
      * apply fine_list, A.
    + cbn [jdoc readable]. rewrite (array_readable fine); auto.
      * apply Forall_forall. intros x _. apply js_readable.
      * apply fine_list, B.
  - intros E. f_equal. cbn [jdoc]. f_equal.
    assert (X : forall l, map (fun v => (NoLabel, jdoc v)) (map jstmt l) =
                          map (fun v => (NoLabel, jdoc v)) (map jstmt (map blur l))).
    { intros l. rewrite !map_map. apply map_ext. intros x. f_equal. symmetry. apply jdoc_blur. }
    rewrite (X a), (X b), E. reflexivity.
Qed.
End Text.
