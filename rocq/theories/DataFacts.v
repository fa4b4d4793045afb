(** The printers show syntax trees in the ways of SpecData.v. *)
From Verif Require Import Base F64 Token Ast AstInd Show ShowFacts ShowTree ShowJs SpecData.
From Coq Require Import Lia.
Local Open Scope string_scope.

(** ** Induction on data *)
Section DatumInd.
Variable P : datum -> Prop.
Hypothesis H1 : forall n, P (Int n).
Hypothesis H2 : forall x, P (Float x).
Hypothesis H3 : forall b, P (Bool b).
Hypothesis H4 : forall s, P (Str s).
Hypothesis H5 : P (Maybe None).
Hypothesis H6 : forall d, P d -> P (Maybe (Some d)).
Hypothesis H7 : forall l, Forall P l -> P (Seq l).
Hypothesis H8 : forall l, Forall (fun kd => P (snd kd)) l -> P (Dict l).
Hypothesis H9 : forall n, P (Constant n).
Hypothesis H10 : forall n l, Forall P l -> P (Variant n l).
Hypothesis H11 : forall n l, Forall (fun kd => P (snd kd)) l -> P (Struct n l).
Hypothesis H12 : forall n d, P d -> P (Wrapper n d).
Hypothesis H13 : forall d, P d -> P (InCell d).
Fixpoint datum_tree (d : datum) : P d :=
  let all := fix go l : Forall P l :=
    match l with
    | nil => Forall_nil _
    | x :: r => Forall_cons x (datum_tree x) (go r)
    end in
  let fields := fix go l : Forall (fun kd => P (snd kd)) l :=
    match l with
    | nil => Forall_nil _
    | x :: r => Forall_cons x (datum_tree (snd x)) (go r)
    end in
  match d with
  | Int n => H1 n
  | Float x => H2 x
  | Bool b => H3 b
  | Str s => H4 s
  | Maybe None => H5
  | Maybe (Some d) => H6 d (datum_tree d)
  | Seq l => H7 l (all l)
  | Dict l => H8 l (fields l)
  | Constant n => H9 n
  | Variant n l => H10 n l (all l)
  | Struct n l => H11 n l (fields l)
  | Wrapper n d => H12 n d (datum_tree d)
  | InCell d => H13 d (datum_tree d)
  end.
End DatumInd.

(** ** Lines *)
(** The text of lines inside a value whose lines start with [pad]. *)
Definition tail_text (pad u : string) (l : lines) : string :=
  cat (map (fun x => s_nl ++ pad ++ repeated_text (fst x) u ++ snd x) l).
Definition render (pad u : string) (l : lines) : string :=
  match l with nil => "" | (_, s) :: r => s ++ tail_text pad u r end.
Definition wf (l : lines) : Prop := exists s r, l = (0, s) :: r.

Lemma cat_app : forall a b, cat (a ++ b)%list = cat a ++ cat b.
Proof. induction a; intros; cbn; auto. now rewrite IHa, app_assoc_s. Qed.
Lemma cat_concat : forall l, String.concat "" l = cat l.
Proof.
  induction l as [|x [|y r] IH]; cbn in *; auto; [now rewrite app_nil_s|]. now rewrite IH.
Qed.
Lemma text_render : forall u l, text_of_lines u l = render "" u l.
Proof. intros u [|[n s] r]; cbn; auto. now rewrite cat_concat. Qed.
Lemma tail_app : forall pad u a b, tail_text pad u (a ++ b)%list = tail_text pad u a ++ tail_text pad u b.
Proof. intros. unfold tail_text. now rewrite map_app, cat_app. Qed.
Lemma tail_deeper : forall pad u l, tail_text pad u (deeper l) = tail_text (pad ++ u) u l.
Proof.
  intros. unfold tail_text, deeper. rewrite map_map. f_equal. apply map_ext. intros [n s]. cbn.
  now rewrite !app_assoc_s.
Qed.
Lemma tail_cons : forall pad u n s l,
  tail_text pad u ((n, s) :: l) = s_nl ++ pad ++ repeated_text n u ++ s ++ tail_text pad u l.
Proof. intros. unfold tail_text. cbn [map cat fst snd]. now rewrite !app_assoc_s. Qed.
Lemma tail_suffixed : forall pad u b l, l <> nil ->
  tail_text pad u (suffixed b l) = tail_text pad u l ++ b.
Proof.
  intros pad u b. induction l as [|[n s] [|y r] IH]; intros N; [congruence| |].
  - cbn [suffixed]. rewrite !tail_cons. unfold tail_text. cbn [map cat]. now rewrite !app_nil_s, !app_assoc_s.
  - change (suffixed b ((n, s) :: y :: r)) with ((n, s) :: suffixed b (y :: r)).
    rewrite !(tail_cons _ _ n s), IH by discriminate. now rewrite !app_assoc_s.
Qed.
Lemma tail_item : forall pad u label l, wf l ->
  tail_text pad u (item label l) = s_nl ++ pad ++ u ++ label ++ render (pad ++ u) u l ++ ",".
Proof.
  intros pad u label l (s & r & ->). unfold item. rewrite tail_deeper. destruct r as [|x r].
  - cbn [suffixed prefixed render]. rewrite tail_cons. unfold tail_text. cbn [map cat repeated_text].
    rewrite !app_nil_s, !app_assoc_s. reflexivity.
  - change (suffixed "," ((0, s) :: x :: r)) with ((0, s) :: suffixed "," (x :: r)).
    cbn [prefixed render]. rewrite tail_cons, tail_suffixed by discriminate.
    cbn [repeated_text]. rewrite !app_assoc_s. reflexivity.
Qed.
Lemma tail_items : forall pad u items, tail_text pad u (List.concat items) =
  cat (map (tail_text pad u) items).
Proof. induction items; cbn [List.concat map cat]; auto. now rewrite tail_app, IHitems. Qed.
Lemma wf_word : forall s, wf (word s).
Proof. intros. now exists s, nil. Qed.
Lemma wf_enclosed : forall o c items, wf (enclosed o c items).
Proof. intros. eexists o, _. reflexivity. Qed.
Lemma wf_page : forall o c items, wf (word "" ++ enclosed o c items)%list.
Proof. intros. eexists "", _. reflexivity. Qed.
Lemma render_enclosed : forall pad u o c items,
  render pad u (enclosed o c items) = o ++ cat (map (tail_text pad u) items) ++ s_nl ++ pad ++ c.
Proof.
  intros. unfold enclosed, word. cbn [app render]. rewrite tail_app, tail_items.
  unfold tail_text at 2. cbn. now rewrite app_nil_s.
Qed.

(** ** [{:#?}] *)
Section Debug.
Variable F : formats.

Fixpoint doc_of (d : datum) : doc :=
  match d with
  | Int n => dint n
  | Float x => Word (f_num F x)
  | Bool b => Word (if b then "true" else "false")
  | Str s => Text s
  | Maybe o => doption (fun d => d) (match o with Some d => Some (doc_of d) | None => None end)
  | Seq l => dlist (map doc_of l)
  | Dict l => dstruct "Map" [("map", dmap (map (fun kd => match kd with (k, d) => (k, doc_of d) end) l))]
  | Constant n => Word n
  | Variant n nil => Word n
  | Variant n l => dtuple n (map doc_of l)
  | Struct n l => dstruct n (map (fun kd => match kd with (k, d) => (k, doc_of d) end) l)
  | Wrapper n d => dtuple n [doc_of d]
  | InCell d => dcell (doc_of d)
  end.

Lemma debug_wf : forall d, wf (debug_lines F d).
Proof.
  destruct d as [| | | |[]|[]| | |? []| | |]; cbn [debug_lines]; auto using wf_word, wf_enclosed.
Qed.
(** A newline after each item, or before. *)
Lemma shift_newlines : forall A (f : A -> string) l z,
  s_nl ++ cat (map (fun i => f i ++ s_nl) l) ++ z = cat (map (fun i => s_nl ++ f i) l) ++ s_nl ++ z.
Proof.
  intros A f. induction l as [|x r IH]; intros z; cbn [map cat]; [reflexivity|].
  rewrite !app_assoc_s, IH. reflexivity.
Qed.
Lemma debug_node : forall pad o items c,
  debug F pad (Node o items c) =
  o ++ cat (map (fun i => s_nl ++ pad ++ "    " ++ show_label (f_str F) (fst i) ++
                          debug F (pad ++ "    ") (snd i) ++ ",") items) ++ s_nl ++ pad ++ c.
Proof.
  intros. cbn [debug].
  rewrite <- (shift_newlines _ (fun i => pad ++ "    " ++ show_label (f_str F) (fst i) ++
                          debug F (pad ++ "    ") (snd i) ++ ",") items (pad ++ c)).
  do 4 f_equal. apply map_ext. intros [l x]. cbn [fst snd]. now rewrite !app_assoc_s.
Qed.
Definition shown (d : datum) : Prop := forall pad, debug F pad (doc_of d) = render pad "    " (debug_lines F d).
Lemma shown_word : forall pad s, s = render pad "    " (word s).
Proof. intros. cbn. now rewrite app_nil_s. Qed.
Lemma shown_items : forall l, Forall shown l -> forall pad,
  map (fun i => s_nl ++ pad ++ "    " ++ show_label (f_str F) (fst i) ++ debug F (pad ++ "    ") (snd i) ++ ",")
    (map (fun x => (NoLabel, x)) (map doc_of l)) =
  map (tail_text pad "    ") (map (fun d => item "" (debug_lines F d)) l).
Proof.
  induction 1 as [|d r H Hr IH]; intros pad; [reflexivity|]. cbn [map]. rewrite IH, tail_item by apply debug_wf.
  cbn [fst snd show_label]. now rewrite H.
Qed.
Lemma shown_keys : forall l, Forall (fun kd => shown (snd kd)) l -> forall pad,
  map (fun i => s_nl ++ pad ++ "    " ++ show_label (f_str F) (fst i) ++ debug F (pad ++ "    ") (snd i) ++ ",")
    (map (fun f => (Key (fst f), snd f)) (map (fun kd => match kd with (k, d) => (k, doc_of d) end) l)) =
  map (tail_text pad "    ")
    (map (fun kd => match kd with (k, d) => item (f_str F k ++ ": ") (debug_lines F d) end) l).
Proof.
  induction 1 as [|[k d] r H Hr IH]; intros pad; [reflexivity|]. cbn [map]. rewrite IH, tail_item by apply debug_wf.
  cbn [fst snd show_label] in *. rewrite H. now rewrite !app_assoc_s.
Qed.
Lemma shown_fields : forall l, Forall (fun kd => shown (snd kd)) l -> forall pad,
  map (fun i => s_nl ++ pad ++ "    " ++ show_label (f_str F) (fst i) ++ debug F (pad ++ "    ") (snd i) ++ ",")
    (map (fun f => (Field (fst f), snd f)) (map (fun kd => match kd with (k, d) => (k, doc_of d) end) l)) =
  map (tail_text pad "    ")
    (map (fun kd => match kd with (k, d) => item (k ++ ": ") (debug_lines F d) end) l).
Proof.
  induction 1 as [|[k d] r H Hr IH]; intros pad; [reflexivity|]. cbn [map]. rewrite IH, tail_item by apply debug_wf.
  cbn [fst snd show_label] in *. rewrite H. now rewrite !app_assoc_s.
Qed.
Lemma debug_shown : forall d, shown d.
Proof.
  apply datum_tree; unfold shown; intros; cbn [doc_of debug_lines]; try apply shown_word.
  - cbn [doption]. unfold dtuple. rewrite debug_node, render_enclosed. cbn [map fst snd show_label cat].
    rewrite tail_item by apply debug_wf. rewrite H. reflexivity.
  - destruct l as [|x r]; [apply shown_word|]. cbn [map]. unfold dlist.
    change (doc_of x :: map doc_of r) with (map doc_of (x :: r)).
    change (item "" (debug_lines F x) :: ?l) with (map (fun d => item "" (debug_lines F d)) (x :: r)).
    rewrite debug_node, render_enclosed, shown_items; auto.
  - unfold dstruct. rewrite debug_node, render_enclosed. cbn [map fst snd show_label cat].
    assert (W : forall l, wf (match l with nil => word "{}" | _ => enclosed "{" "}"
                  (map (fun kd => match kd with (k, d) => item (f_str F k ++ ": ") (debug_lines F d) end) l) end)).
    { intros []; auto using wf_word, wf_enclosed. }
    rewrite tail_item by apply W. rewrite !app_nil_s.
    match goal with |- context [debug F ?p ?x] => set (dd := debug F p x) end.
    match goal with |- context [render ?p ?u ?x] => set (rr := render p u x) end.
    enough (E : dd = rr) by (rewrite E; reflexivity). subst dd rr.
    destruct l as [|x r]; [apply shown_word|]. unfold dmap.
    match goal with |- debug F ?p (match ?l with _ => _ end) = _ => remember l as l2 eqn:El end.
    destruct l2 as [|y r2]; [destruct x; discriminate El|]. rewrite El.
    rewrite debug_node, render_enclosed, shown_keys; auto.
  - destruct l as [|x r]; [apply shown_word|]. unfold dtuple.
    rewrite debug_node, render_enclosed, shown_items; auto.
  - unfold dstruct. rewrite debug_node, render_enclosed, shown_fields; auto.
  - unfold dtuple. rewrite debug_node, render_enclosed. cbn [map fst snd show_label cat].
    rewrite tail_item by apply debug_wf. rewrite H. reflexivity.
  - unfold dcell, dstruct. rewrite debug_node, render_enclosed. cbn [map fst snd show_label cat].
    rewrite tail_item by apply debug_wf. rewrite H. reflexivity.
Qed.
End Debug.

(** ** Syntax trees *)
Lemma map_all {A B} (f g : A -> B) l : Forall (fun x => f x = g x) l -> map f l = map g l.
Proof. induction 1; cbn; congruence. Qed.
Lemma doption_some : forall F (o : option datum),
  doc_of F (Maybe o) = doption (doc_of F) o.
Proof. intros F [d|]; reflexivity. Qed.
Section Trees.
Variable F : formats.
Lemma dloc_of : forall l, dloc l = doc_of F (loc_data l).
Proof. reflexivity. Qed.
Lemma dvar_of : forall v, dvar v = doc_of F (var_data v).
Proof. reflexivity. Qed.
Lemma dslot_of : forall v, dslot v = doc_of F (slot_data v).
Proof. reflexivity. Qed.
Lemma doc_trees :
  (forall st, dstmt F st = doc_of F (stmt_data st)) /\
  (forall e, dexpr F e = doc_of F (expr_data e)) /\
  (forall c, dclass F c = doc_of F (class_data c)) /\
  (forall f, dfun F f = doc_of F (fun_data f)).
Proof.
  apply tree_ind; intros;
    cbn [dstmt dexpr dclass dfun dnamed stmt_data expr_data class_data fun_data named_data doc_of map];
    fold (dstmt F) (dexpr F) (dclass F) (dnamed F) (dfun F);
    fold stmt_data expr_data class_data named_data fun_data;
    try rewrite !map_map;
    repeat match goal with
           | H : dexpr F _ = _ |- _ => rewrite H; clear H
           | H : dstmt F _ = _ |- _ => rewrite H; clear H
           | H : dclass F _ = _ |- _ => rewrite H; clear H
           | H : dfun F _ = _ |- _ => rewrite H; clear H
           | H : Forall _ ?l |- context [map (dstmt F) ?l] => rewrite (map_all _ _ _ H); clear H
           | H : Forall _ ?l |- context [map (dexpr F) ?l] => rewrite (map_all _ _ _ H); clear H
           end;
    try reflexivity.
  - destruct e as [x|]; cbn in H1 |- *; [rewrite H1|]; reflexivity.
  - destruct op; reflexivity.
  - do 6 f_equal. apply map_all. refine (Forall_impl _ _ H). intros [k e] E. cbn in *. now rewrite E.
  - destruct op; reflexivity.
  - destruct op; reflexivity.
  - unfold dstruct. cbn [map fst snd]. do 2 f_equal. f_equal; [|f_equal].
    + destruct s as [x|]; cbn in H |- *; [rewrite H|]; reflexivity.
    + do 2 f_equal. apply map_all. refine (Forall_impl _ _ H0). intros [k f] E.
      cbn [Pn] in E. transitivity (dstruct "NamedFunctionDefinition" [("name", Text k); ("fun_def", dfun F f)]);
        [reflexivity|]. now rewrite E.
  - destruct ft; reflexivity.
Qed.
Theorem debug_program_data : forall l,
  debug_program F l = debug_text F l.
Proof.
  intros l. unfold debug_text. rewrite text_render, <- debug_shown. unfold debug_program, program_data. cbn [doc_of].
  rewrite map_map. do 2 f_equal. apply map_ext. apply doc_trees.
Qed.
End Trees.

Lemma js_trees :
  (forall st, jstmt st = js_value (stmt_data st)) /\
  (forall e, jexpr e = js_value (expr_data e)) /\
  (forall c, jclass c = js_value (class_data c)) /\
  (forall f, jfun f = js_value (fun_data f)).
Proof.
  apply tree_ind; intros;
    cbn [jstmt jexpr jclass jfun jnamed stmt_data expr_data class_data fun_data named_data js_value map];
    fold jstmt jexpr jclass jnamed jfun;
    fold stmt_data expr_data class_data named_data fun_data;
    try rewrite !map_map;
    repeat match goal with
           | H : jexpr _ = _ |- _ => rewrite H; clear H
           | H : jstmt _ = _ |- _ => rewrite H; clear H
           | H : jclass _ = _ |- _ => rewrite H; clear H
           | H : jfun _ = _ |- _ => rewrite H; clear H
           | H : Forall _ ?l |- context [map jstmt ?l] => rewrite (map_all _ _ _ H); clear H
           | H : Forall _ ?l |- context [map jexpr ?l] => rewrite (map_all _ _ _ H); clear H
           end;
    try reflexivity.
  - destruct e as [x|]; cbn in H1 |- *; [rewrite H1|]; reflexivity.
  - destruct op; reflexivity.
  - unfold tagged. do 4 f_equal. f_equal. apply map_all. refine (Forall_impl _ _ H).
    intros [k e] E. cbn in *. now rewrite E.
  - destruct op; reflexivity.
  - destruct op; reflexivity.
  - do 2 f_equal. f_equal; [|f_equal].
    + destruct s as [x|]; cbn in H |- *; [rewrite H|]; reflexivity.
    + do 2 f_equal. apply map_all. refine (Forall_impl _ _ H0). intros [k f] E.
      cbn [Pn] in E. transitivity (JObject [("name", JString k); ("fun_def", jfun f)]);
        [reflexivity|]. now rewrite E.
  - destruct ft; reflexivity.
Qed.
Theorem js_program_data : forall l, JArray (map jstmt l) = js_value (program_data l).
Proof.
  intros l. unfold program_data. cbn [js_value]. rewrite map_map. f_equal. apply map_ext. apply js_trees.
Qed.

(** ** Keys and strings on the page *)
Lemma escaped_byte : forall c, escaped c (json_byte c).
Proof.
  intros c. unfold json_byte.
  destruct (N_of_ascii c =? 34)%N eqn:E1;
    [apply N.eqb_eq in E1; apply EShort; rewrite E1; cbn; tauto|].
  destruct (N_of_ascii c =? 92)%N eqn:E2;
    [apply N.eqb_eq in E2; apply EShort; rewrite E2; cbn; tauto|].
  destruct (N_of_ascii c =? 8)%N eqn:E3;
    [apply N.eqb_eq in E3; apply EShort; rewrite E3; cbn; tauto|].
  destruct (N_of_ascii c =? 12)%N eqn:E4;
    [apply N.eqb_eq in E4; apply EShort; rewrite E4; cbn; tauto|].
  destruct (N_of_ascii c =? 10)%N eqn:E5;
    [apply N.eqb_eq in E5; apply EShort; rewrite E5; cbn; tauto|].
  destruct (N_of_ascii c =? 13)%N eqn:E6;
    [apply N.eqb_eq in E6; apply EShort; rewrite E6; cbn; tauto|].
  destruct (N_of_ascii c =? 9)%N eqn:E7;
    [apply N.eqb_eq in E7; apply EShort; rewrite E7; cbn; tauto|].
  apply N.eqb_neq in E1, E2, E3, E4, E5, E6, E7.
  assert (NI : ~ In (N_of_ascii c) (map fst short_escapes)).
  { cbn. intuition congruence. }
  destruct (N_of_ascii c <? 32)%N eqn:E8.
  - apply N.ltb_lt in E8.
    pose proof (N.div_mod (N_of_ascii c) 16) as D. pose proof (N.mod_lt (N_of_ascii c) 16) as M.
    assert (N_of_ascii c / 16 < 2)%N by (apply N.div_lt_upper_bound; lia).
    set (q := (N_of_ascii c / 16)%N) in *. set (r := (N_of_ascii c mod 16)%N) in *.
    change (String (hex_digit q) (String (hex_digit r) "")) with
      (String (hex_digit q) "" ++ String (hex_digit r) "").
    eapply (EControl c (N.to_nat q) (N.to_nat r)); auto; try lia.
    + assert (Q : q = 0%N \/ q = 1%N) by lia. destruct Q as [-> | ->]; reflexivity.
    + assert (R : (r < 16)%N) by lia. clearbody r. clear - R.
      assert (L : In r [0;1;2;3;4;5;6;7;8;9;10;11;12;13;14;15]%N) by (cbn; lia).
      cbn in L. repeat destruct L as [<-|L]; try reflexivity. contradiction.
  - apply N.ltb_ge in E8. apply EPlain; auto.
Qed.
Lemma escaped_unique : forall c s t, escaped c s -> escaped c t -> s = t.
Proof.
  intros c s t A B.
  assert (SU : forall s t, In (N_of_ascii c, s) short_escapes -> In (N_of_ascii c, t) short_escapes -> s = t).
  { intros x y X Y. cbn in X, Y.
    repeat destruct X as [X|X]; repeat destruct Y as [Y|Y]; try contradiction; congruence. }
  assert (SI : forall s, In (N_of_ascii c, s) short_escapes -> In (N_of_ascii c) (map fst short_escapes)).
  { intros x X. change (N_of_ascii c) with (fst (N_of_ascii c, x)). now apply in_map. }
  destruct A as [x X|hi lo a b N1 E L1 L2 A B'|N1 G]; destruct B as [y Y|hi2 lo2 a2 b2 N2 E2 M1 M2 A2 B2|N2 G2].
  - f_equal; eauto.
  - exfalso; eauto.
  - exfalso; eauto.
  - exfalso; eauto.
  - assert (hi = hi2 /\ lo = lo2) as [-> ->] by lia. congruence.
  - lia.
  - exfalso; eauto.
  - lia.
  - reflexivity.
Qed.
Lemma all_escaped_iff : forall s t, all_escaped s t <-> t = json_chars s.
Proof.
  induction s as [|c r IH]; intros t; split.
  - inversion 1; reflexivity.
  - intros ->. constructor.
  - intros H. inversion H; subst. cbn [json_chars]. f_equal; [|now apply IH].
    eapply escaped_unique; eauto using escaped_byte.
  - intros ->. constructor; [apply escaped_byte|now apply IH].
Qed.
Lemma json_string_iff : forall s t, json_string s t <-> t = escape_string s.
Proof.
  intros s t. unfold json_string, escape_string. split.
  - intros (u & U & ->). apply all_escaped_iff in U. now subst.
  - intros ->. eexists. split; [|reflexivity]. now apply all_escaped_iff.
Qed.

Lemma identifier_byte_iff : forall first c,
  identifier_byte first c = true <-> letter c \/ (first = false /\ digit c).
Proof.
  intros first c. unfold identifier_byte, letter, digit. destruct first; cbn [negb];
    rewrite ?orb_true_iff, ?andb_true_iff, ?N.leb_le, ?N.eqb_eq; intuition (try congruence; try lia).
Qed.
Lemma identifier_rest_iff : forall r,
  identifier_rest r = true <-> Forall (fun c => letter c \/ digit c) (list_ascii_of_string r).
Proof.
  induction r as [|c r IH]; cbn; [split; auto|]. rewrite andb_true_iff, IH, identifier_byte_iff.
  split; [intros [A B]; constructor; tauto|]. inversion 1; subst; tauto.
Qed.
Lemma plain_key_iff : forall k,
  plain_key k <-> is_identifier k && negb (existsb (String.eqb k) js_reserved) = true.
Proof.
  intros k. unfold plain_key. rewrite andb_true_iff, negb_true_iff.
  match goal with |- _ /\ ~ In k ?l <-> _ => change l with js_reserved end.
  assert (R : ~ In k js_reserved <-> existsb (String.eqb k) js_reserved = false).
  { rewrite <- not_true_iff_false, existsb_exists. split; intros H X; apply H.
    - destruct X as (x & X & E). apply String.eqb_eq in E. now subst.
    - exists k. split; auto. apply String.eqb_refl. }
  rewrite R. apply and_iff_compat_r. destruct k as [|c r]; cbn [is_identifier].
  - split; [|discriminate]. intros (c & r & E & _). discriminate.
  - rewrite andb_true_iff, identifier_rest_iff, identifier_byte_iff. split.
    + intros (c' & r' & E & L & A). injection E as <- <-. tauto.
    + intros [[L|[E _]] A]; [|discriminate]. now exists c, (list_ascii_of_string r).
Qed.
Lemma key_text_iff : forall k t, key_text k t <-> t = escape_map_key k.
Proof.
  intros k t. unfold key_text, escape_map_key. rewrite !plain_key_iff, json_string_iff.
  destruct (is_identifier k && negb (existsb (String.eqb k) js_reserved)); intuition congruence.
Qed.

(** ** The page *)
Scheme page_ind2 := Minimality for page Sort Prop
with page_items_ind2 := Minimality for page_items Sort Prop
with page_fields_ind2 := Minimality for page_fields Sort Prop.
Combined Scheme page_mut from page_ind2, page_items_ind2, page_fields_ind2.
Section Page.
Variable F : formats.

Lemma page_wf : forall v l, page F v l -> wf l.
Proof. destruct 1; auto using wf_word, wf_page. Qed.
Lemma render_page : forall pad u o c items,
  render pad u (word "" ++ enclosed o c items)%list =
  s_nl ++ pad ++ o ++ cat (map (tail_text pad u) items) ++ s_nl ++ pad ++ c.
Proof.
  intros. unfold enclosed, word. cbn [app render]. rewrite tail_cons, tail_app, tail_items, tail_cons.
  unfold tail_text at 2. cbn [map cat repeated_text]. rewrite app_nil_s. reflexivity.
Qed.
Lemma pages :
  (forall v l, page F v l -> forall pad, pretty F v pad = render pad "  " l) /\
  (forall vs items, page_items F vs items -> forall pad,
     map (fun x => s_nl ++ pad ++ "  " ++ pretty F x (pad ++ "  ") ++ ",") vs =
     map (tail_text pad "  ") items) /\
  (forall fs items, page_fields F fs items -> forall pad,
     map (fun kv => match kv with
                    | (k, x) => s_nl ++ pad ++ "  " ++ escape_map_key k ++ ": " ++
                                pretty F x (pad ++ "  ") ++ ","
                    end) fs =
     map (tail_text pad "  ") items).
Proof.
  apply page_mut; intros.
  - apply (shown_word pad).
  - apply (shown_word pad).
  - apply (shown_word pad).
  - apply json_string_iff in H. subst. apply (shown_word pad).
  - rewrite render_page, <- H0. reflexivity.
  - rewrite render_page, <- H0. reflexivity.
  - rewrite render_page, <- H0. reflexivity.
  - rewrite render_page. reflexivity.
  - reflexivity.
  - cbn [map]. rewrite H2, tail_item by eauto using page_wf. now rewrite <- H0.
  - reflexivity.
  - cbn [map]. rewrite H3, tail_item by eauto using page_wf. apply key_text_iff in H. subst t.
    rewrite <- H1. now rewrite !app_assoc_s.
Qed.
Theorem page_display : forall v l, page F v l -> display F v = text_of_lines "  " l.
Proof. intros v l H. rewrite text_render. apply (proj1 pages _ _ H). Qed.
Theorem page_exists : forall v, exists l, page F v l.
Proof.
  apply js_tree; intros; try (eexists; constructor; fail).
  - eexists. constructor. now apply json_string_iff.
  - enough (exists items, page_items F l items) as [items P] by (eexists; apply PArray; exact P).
    induction H as [|v l [x X] _ [items IH]]; eexists; constructor; eauto.
  - enough (exists items, page_fields F l items) as [items P] by (eexists; apply PObject; exact P).
    induction H as [|[k v] l [x X] _ [items IH]]; eexists; constructor; eauto. now apply key_text_iff.
  - enough (exists items, page_fields F l items) as [items P] by (eexists; apply PMap; exact P).
    induction H as [|[k v] l [x X] _ [items IH]]; eexists; constructor; eauto. now apply key_text_iff.
Qed.
Theorem page_text_iff : forall v t, page_text F v t <-> t = display F v.
Proof.
  intros v t. split.
  - intros (ls & P & ->). symmetry. now apply page_display.
  - intros ->. destruct (page_exists v) as (ls & P). exists ls. split; auto. now apply page_display.
Qed.
End Page.
