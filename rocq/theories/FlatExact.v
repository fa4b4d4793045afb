(** Without indentation no statement starts with an empty map. *)
From Verif Require Import Base F64 Token Ast Scanner Parser SpecLex SpecTree SpecGrammar SpecPrint SpecPlace SpecWrite
  SpecParse ParseFirst SizeTree ScanFinal ParseProps ParseMore ParseFinal.

Definition flat (i : list token) : Prop := Forall (fun t => t_type t <> Indent) i.
Lemma flat_suffix i r : suffix i r -> flat i -> flat r.
Proof. intros [p ->] F. now apply Forall_app in F. Qed.
Lemma flat_derives trailing b N i v r : derives trailing b N i v r -> flat i -> flat r.
Proof. intros D. eapply flat_suffix, derives_suffix; eauto. Qed.

Definition entry_of (kv : string * expr) : list part := match kv with (_, a) => expr_parts a end.
Definition named_of (n : named_fun) : list part := match n with NamedFun _ f => fun_parts f end.
Definition vparts (v : val) : list part :=
  match v with
  | VE e => expr_parts e
  | VEs es => flat_map expr_parts es
  | VM m => flat_map entry_of m
  | VPs _ => nil
  | VF f => fun_parts f
  | VS st => parts st
  | VO o => match o with Some st => parts st | None => nil end
  | VOE o => match o with Some e => expr_parts e | None => nil end
  | VSs l => flat_map parts l
  | VMs l => flat_map named_of l
  end.
Definition oks (l : list part) : Prop := Forall lines_ok l.
Lemma oks_app l l' : oks (l ++ l') <-> oks l /\ oks l'.
Proof. apply Forall_app. Qed.
Lemma oks_cons p l : oks (p :: l) <-> lines_ok p /\ oks l.
Proof. apply Forall_cons_iff. Qed.
Lemma oks_nil : oks nil <-> True.
Proof. split; auto. constructor. Qed.

Definition before_ok (N : sym) : Prop :=
  match N with BinaryTail _ e | CallTail e => oks (expr_parts e) | _ => True end.
Definition head_ok (N : sym) (i : list token) (v : val) (r : list token) : Prop :=
  match N, v with
  | (Expression | Target | Binary _ | Unary | Call | Primary), VE e =>
    starts [LeftBrace] i \/ empty_first e = false \/ this_here r
  | (BinaryTail _ a | CallTail a), VE e => empty_first a = false -> empty_first e = false
  | (Declaration | Statement | Branch | VarDeclaration _), VS st => line_ok st
  | ExpressionStatement, VS st => starts [LeftBrace] i \/ line_ok st
  | (Statements _ | Block | Program), VSs l => Forall line_ok l
  | _, _ => True
  end.

Lemma operator_head n k f a l b : operator n k = Some f -> empty_first (f a l b) = empty_first a /\
  (oks (expr_parts (f a l b)) <-> oks (expr_parts a) /\ oks (expr_parts b)).
Proof.
  do 6 (destruct n as [|n]; [destruct k; intros E; try discriminate E; injection E as <-; (split; [reflexivity|]);
    cbn [expr_parts]; rewrite oks_cons, oks_app; cbn [lines_ok]; tauto|]).
  discriminate.
Qed.
Lemma assigned_head a b l x : assigned a b l = Some x -> (empty_first a = false -> empty_first x = false) /\
  (oks (expr_parts a) -> oks (expr_parts b) -> oks (expr_parts x)).
Proof.
  destruct a; cbn [assigned]; try discriminate.
  - intros E. injection E as <-. split; [auto|]. cbn [expr_parts]. rewrite !oks_cons, !oks_app; cbn [lines_ok]; tauto.
  - intros E. injection E as <-. split; [auto|]. cbn [expr_parts]. rewrite !oks_cons, !oks_app; cbn [lines_ok]; tauto.
  - destruct (String.eqb _ _); [discriminate|]. intros E. injection E as <-. split; [auto|]. cbn [expr_parts].
    rewrite !oks_cons; cbn [lines_ok]; tauto.
Qed.
Lemma with_kind_ok k f : oks (fun_parts (with_kind k f)) <-> oks (fun_parts f).
Proof. destruct f; cbn [with_kind fun_parts]; rewrite !oks_cons; cbn [lines_ok]; tauto. Qed.
Lemma for_ok o c inc st :
  oks (match o with Some d => parts d | None => nil end) -> oks (expr_parts c) ->
  oks (match inc with Some e => expr_parts e | None => nil end) -> oks (parts st) -> line_ok st ->
  oks (parts (for_tree o c inc st)).
Proof.
  destruct o, inc; cbn [for_tree parts flat_map]; rewrite ?oks_cons, ?oks_app, ?oks_cons, ?oks_app, ?oks_nil;
    cbn [lines_ok]; tauto.
Qed.

Lemma block_lines l : Forall line_ok l -> lines_ok (PStmt (SBlock l)).
Proof. intros F. cbn [lines_ok]. destruct l as [|d [|[] [|]]]; auto. Qed.

Section Flat.
Variable trailing : bool.

Lemma flat_lines : forall b N i v r, derives trailing b N i v r -> sym_ok N -> flat i -> before_ok N ->
  oks (vparts v) /\ head_ok N i v r.
Proof.
  induction 1; intros K F B; cbn [sym_ok before_ok] in *;
    repeat match goal with
    | H : derives trailing _ ?N ?i _ ?r |- _ =>
      lazymatch goal with _ : suffix i r |- _ => fail | _ => idtac end;
      let S := fresh "Sf" in pose proof (derives_suffix _ _ _ _ _ _ H) as S
    | H : opens ?k _ _ |- _ =>
      lazymatch goal with _ : k <> This |- _ => fail | _ => idtac end;
      pose proof (opens_ok _ _ _ H)
    end;
    repeat match goal with IH : True -> flat _ -> _ |- _ => specialize (IH I) end;
    repeat match goal with IH : (?k <> This) -> _, K : ?k <> This |- _ => specialize (IH K) end;
    repeat match goal with IH : RightBrace <> This -> _ |- _ => specialize (IH ltac:(discriminate)) end;
    repeat match goal with
    | IH : flat ?i -> _, F : flat ?i |- _ => specialize (IH F)
    | IH : flat ?j -> _, F : flat ?i |- _ =>
      let F' := fresh "F" in assert (F' : flat j) by (apply (flat_suffix i j); [suf|exact F]); specialize (IH F')
    end;
    repeat match goal with IH : True -> _ /\ _ |- _ => specialize (IH I) end;
    cbn [head_ok vparts] in *.
  all: repeat match goal with H : _ /\ _ |- _ => destruct H end.
  all: cbn [parts expr_parts class_parts fun_parts flat_map entry_of named_of lines_ok line_ok empty_first] in *;
    rewrite ?oks_cons, ?oks_app, ?oks_nil, ?with_kind_ok, ?app_nil_r in *;
    try tauto.
  - (* assignment *)
    destruct (assigned_head _ _ _ _ H2) as [A1 A2]. split; [auto|].
    destruct H6 as [X|[X|X]]; auto. impossible.
  - (* indented *) destruct H as (t & -> & E). inversion F; subst. contradiction.
  - (* binary *)
    destruct IHderives2 as [O T]; auto. split; auto. destruct H3 as [X|[X|X]]; auto. right; right.
    now apply (stuck _ _ _ _ _ _ H1 I).
  - (* operator *)
    destruct (operator_head _ _ _ e (tloc t) e2 H) as [A1 A2]. destruct IHderives2 as [O T]; [tauto|]. split; auto.
    rewrite A1 in T. auto.
  - (* call *)
    destruct IHderives2 as [O T]; auto. split; auto. destruct H2 as [X|[X|X]]; auto. right; right.
    now apply (stuck _ _ _ _ _ _ H0 I).
  - (* bare map *)
    split; [split; [exact I|assumption]|]. apply entries_nonempty in H0; auto. destruct m; cbn in H0; [lia|auto].
  - (* this map *)
    split; [split; [exact I|exact I]|]. right; right. exists t, c, i. auto.
  - (* braces *)
    split; [split; [exact I|assumption]|]. left. destruct H as (t & -> & E). cbn. auto.
  - split; auto.
  - split; auto.
  - repeat split; auto. repeat constructor.
  - split; [split; [exact I|assumption]|]. destruct H2 as [X|[X|X]]; auto. impossible.
  - split; [split; [exact I|assumption]|]. destruct H3 as [X|[X|X]]; auto. impossible.
  - split; auto. split; auto. now apply block_lines.
  - split; auto. split; auto. now apply block_lines.
  - cbn [lines_ok]. tauto.
  - cbn [lines_ok]. tauto.
  - split; [|destruct init, inc; exact I]. now apply for_ok.
  - split; auto.
  - split; auto.
Qed.
End Flat.

(** ** Sources *)
Section Sources.
Variables (U : unicode) (Sn : sane U) (oc : bool) (gs : list string) (V : valid_source gs).
Theorem flat_only toks l : scan_tokens U gs = Done (Ok toks) -> Forall (fun t => t_type t <> Indent) toks ->
  accepted U oc gs l -> Forall line_ok l /\ Forall lines_ok (program_parts l).
Proof.
  intros E F [H|H].
  - apply (parse_exact U Sn oc gs V toks l E) in H as (eof & _ & D).
    destruct (flat_lines _ _ _ _ _ _ D I F I) as [A B]. auto.
  - apply (parse_repl_exact U Sn oc gs V toks l E) in H as (eof & _ & D).
    destruct (flat_lines _ _ _ _ _ _ D I F I) as [A B]. auto.
Qed.
End Sources.

Lemma unplaced_empty : forall e, empty_first (unplaced_expr e) = empty_first e.
Proof.
  fix IH 1. intros []; cbn [unplaced_expr empty_first]; auto. now destruct m.
Qed.
Lemma unplaced_line st : line_ok (unplaced st) <-> line_ok st.
Proof. destruct st; cbn [unplaced line_ok]; try tauto. now rewrite unplaced_empty. Qed.
(** A program with a statement that starts with an empty map has no flat form. *)
Theorem flat_never U oc gs' toks l l' : sane U -> valid_source gs' -> scan_tokens U gs' = Done (Ok toks) ->
  Forall (fun t => t_type t <> Indent) toks -> accepted U oc gs' l' -> map unplaced l' = map unplaced l ->
  Forall line_ok l.
Proof.
  intros Sn V E F A M. destruct (flat_only U Sn oc gs' V toks l' E F A) as [L _].
  clear E F A. revert l M. induction L as [|st l' H L IH]; intros [|st' l] M; try discriminate; constructor.
  - injection M as M _. apply unplaced_line. rewrite <- M. now apply unplaced_line.
  - injection M as _ M. auto.
Qed.
Lemma empty_line l : Forall line_ok l ->
  existsb (fun st => match st with SExpression e => empty_first e | _ => false end) l = true -> False.
Proof.
  intros F H. apply existsb_exists in H. destruct H as (st & I & H). rewrite Forall_forall in F. specialize (F _ I).
  destruct st; try discriminate. cbn in F. congruence.
Qed.
