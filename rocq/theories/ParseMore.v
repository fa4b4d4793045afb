(** More consequences of exactness: statement positions, assignment targets, for loops. *)
From Verif Require Import Base F64 Token Ast Scanner Parser SpecGrammar
  ParseRun ParseSound ParseTop ParseFirst ParseComplete ParseRepl ParseLine.
From Coq Require Import Lia.

(** ** Suffixes of scanned tokens *)
Lemma suffix_ok : forall i r, tokens_ok i -> suffix i r -> r <> nil -> tokens_ok r.
Proof.
  intros i r [(body & eof & Q & K & F) N S] [p ->] NE. apply Forall_app in N, S. split; try tauto.
  destruct (exists_last NE) as (r' & u & ->). rewrite app_assoc in Q. apply app_inj_tail in Q.
  destruct Q as [<- ->]. exists r', eof. apply Forall_app in F. tauto.
Qed.

(** ** Unambiguity *)
Definition start (b : bool) : pstate := mkP 0 (if b then 1 else 0).
Lemma start_okay : forall i b, tokens_ok i -> ~ starts [Eof] i -> okay i b (start b).
Proof.
  intros i b OK N. split; [split|].
  - exact (toks_nonempty i OK).
  - intros _. exact N.
  - destruct b; reflexivity.
Qed.
(** The symbols whose functions take no accumulator. *)
Definition simple (N : sym) (v : val) : Prop :=
  match N, v with
  | (Expression | Target | Binary _ | Unary | Call | Primary | Condition), VE _ => True
  | Function _, VF _ => True
  | Block, VSs _ => True
  | (VarDeclaration _ | Branch | ExpressionStatement | Statement | Declaration), VS _ => True
  | ForInit, VO _ => True
  | Increment, VOE _ => True
  | _, _ => False
  end.
Lemma derives_simple : forall trailing b N i v r, derives trailing b N i v r ->
  match N with
  | BinaryTail _ _ | CallTail _ | Arguments | Elements | Entries | Parameters | Statements _ | Methods _ | Program => True
  | Binary n => n <= top_level /\ simple N v
  | _ => simple N v
  end.
Proof. induction 1; cbn; auto; try (split; auto; lia). Qed.
Lemma unambiguous : forall trailing b N i v r v' r', tokens_ok i -> ~ starts [Eof] i ->
  simple N v -> derives trailing b N i v r -> derives trailing b N i v' r' -> v = v' /\ r = r'.
Proof.
  intros trailing b N i v r v' r' OK NE SI D D'.
  assert (SD := derives_simple _ _ _ _ _ _ D). assert (SI' := derives_simple _ _ _ _ _ _ D').
  assert (O := start_okay i b OK NE).
  apply (complete_all i trailing true OK) in D. apply (complete_all i trailing true OK) in D'.
  assert (two : forall A (m : P A) a a' , yields i b m (start b) a r -> yields i b m (start b) a' r' -> a = a' /\ r = r').
  { intros A m a a' (s1 & E1 & _ & R1) (s2 & E2 & _ & R2). rewrite E1 in E2. injection E2 as <- <-.
    split; congruence. }
  destruct N; cbn [simple] in *; try contradiction; try (destruct SI' as [LT SI']); destruct v; try contradiction;
    destruct v'; try contradiction; cbn [complete] in *.
  all: try (destruct (two _ _ _ _ (D (S (length i)) (start b) O eq_refl ltac:(lia))
    (D' (S (length i)) (start b) O eq_refl ltac:(lia))) as [-> ->]; auto).
  - destruct (two _ _ _ _ (D LT (S (length i)) (start b) O eq_refl ltac:(lia))
    (D' LT (S (length i)) (start b) O eq_refl ltac:(lia))) as [-> ->]; auto.
  - destruct (two _ _ _ _ (D (S (length i)) (S (length i)) (start b) O eq_refl ltac:(lia) ltac:(lia))
    (D' (S (length i)) (S (length i)) (start b) O eq_refl ltac:(lia) ltac:(lia))) as [-> ->]; auto.
  - destruct (two _ _ _ _ (D (S (length i)) "" (start b) O eq_refl ltac:(lia))
    (D' (S (length i)) "" (start b) O eq_refl ltac:(lia))) as [-> ->]; auto.
  - destruct (two _ _ _ _ (D (S (length i)) "" (start b) O eq_refl ltac:(lia))
    (D' (S (length i)) "" (start b) O eq_refl ltac:(lia))) as [-> ->]; auto.
Qed.
Lemma declaration_unambiguous : forall trailing b i st r st' r', tokens_ok i ->
  derives trailing b Declaration i (VS st) r -> derives trailing b Declaration i (VS st') r' -> st = st' /\ r = r'.
Proof.
  intros trailing b i st r st' r' OK D D'.
  assert (NE : ~ starts [Eof] i) by (eapply not_first; [exact D|discriminate|reflexivity]).
  destruct (unambiguous trailing b Declaration i (VS st) _ _ _ OK NE Logic.I D D') as [E ->]. injection E as ->. auto.
Qed.

(** ** Statement positions *)
Lemma declarations_suffix : forall trailing b i r, declarations trailing b i r -> suffix i r.
Proof.
  induction 1; [apply suffix_refl|]. eapply suffix_trans; [eapply derives_suffix; eauto|auto].
Qed.
Lemma program_reaches : forall trailing b i r, declarations trailing b i r -> r <> nil -> forall l e,
  tokens_ok i -> derives trailing b Program i (VSs l) e ->
  exists l', derives trailing b Program r (VSs l') e.
Proof.
  induction 1 as [i|i st r1 r D R IH]; intros NE l e OK P; eauto.
  inversion P; subst.
  - exfalso. match goal with S : starts [Eof] _ |- _ => revert S end.
    eapply not_first; [exact D|discriminate|reflexivity].
  - match goal with H : derives _ _ Declaration i _ _ |- _ =>
      match type of D with _ => destruct (declaration_unambiguous _ _ _ _ _ _ _ OK D H) as [<- <-] end end.
    eapply IH; eauto. eapply suffix_ok; eauto; [eapply derives_suffix; eauto|].
    apply declarations_suffix in R. intros ->. destruct R as [p R]. destruct p; destruct r; discriminate || congruence.
Qed.
Lemma statements_reach : forall trailing b k i r, declarations trailing b i r -> r <> nil -> 
  k = Outdent \/ k = RightBrace -> forall l e,
  tokens_ok i -> derives trailing b (Statements k) i (VSs l) e ->
  exists l', derives trailing b (Statements k) r (VSs l') e.
Proof.
  induction 1 as [i|i st r1 r D R IH]; intros NE CL l e OK P; eauto.
  inversion P; subst.
  - exfalso. match goal with T : token_then _ _ _ |- _ => destruct T as (t & -> & K) end.
    assert (S : starts [k] (t :: e)) by (left; auto). revert S.
    eapply not_first; [exact D|discriminate|]. destruct CL; subst k; reflexivity.
  - match goal with H : derives _ _ Declaration i _ _ |- _ =>
      destruct (declaration_unambiguous _ _ _ _ _ _ _ OK D H) as [<- <-] end.
    eapply IH; eauto. eapply suffix_ok; eauto; [eapply derives_suffix; eauto|].
    apply declarations_suffix in R. intros ->. destruct R as [p R]. destruct p; destruct r; discriminate || congruence.
Qed.
(** No declaration starts with a line end, or whatever else none starts with. *)
Lemma no_declaration_here : forall trailing b i l e ks, derives trailing b Program i (VSs l) e -> starts ks i ->
  forallb (fun k => negb (existsb (tt_eqb k) (Eof :: decl_first))) ks = true -> False.
Proof.
  intros trailing b i l e ks P S F.
  assert (F' : forallb (fun k => negb (existsb (tt_eqb k) decl_first)) ks = true /\ ~ In Eof ks).
  { split.
    - rewrite forallb_forall in *. intros k I. specialize (F k I). cbn [existsb] in F.
      destruct (tt_eqb k Eof); [discriminate|exact F].
    - intros I. rewrite forallb_forall in F. specialize (F Eof I). discriminate. }
  destruct F' as [F1 F2]. inversion P; subst.
  - match goal with H : starts [Eof] _ |- _ => destruct e as [|t e]; cbn in *; auto; destruct H as [H|[]] end.
    congruence.
  - match goal with H : derives _ _ Declaration _ _ _ |- _ =>
      revert S; eapply not_first; [exact H|discriminate|exact F1] end.
Qed.
Lemma terminator_rejects : forall toks trailing oc i, tokens_ok toks -> declarations trailing false toks i ->
  starts [Terminator] i -> forall l, parse_tokens toks trailing oc <> Done (Ok l).
Proof.
  intros toks trailing oc i OK D S l H. apply parse_tokens_exact in H; auto. destruct H as (e & K & H).
  destruct (program_reaches _ _ _ _ D ltac:(intros ->; contradiction) _ _ OK H) as (l' & P).
  eapply no_declaration_here; eauto.
Qed.
Lemma terminator_rejects_block : forall trailing b k i r, tokens_ok i -> k = Outdent \/ k = RightBrace ->
  declarations trailing b i r -> starts [Terminator] r ->
  forall l e, ~ derives trailing b (Statements k) i (VSs l) e.
Proof.
  intros trailing b k i r OK CL D S l e H.
  destruct (statements_reach _ _ _ _ _ D ltac:(intros ->; contradiction) CL _ _ OK H) as (l' & P).
  inversion P; subst.
  - match goal with T : token_then _ _ _ |- _ => destruct T as (t & -> & K) end.
    destruct S as [S|[]]. destruct CL; congruence.
  - match goal with H : derives _ _ Declaration _ _ _ |- _ => revert S; eapply not_first; [exact H|discriminate|reflexivity] end.
Qed.

(** ** Assignment targets *)
Lemma assigned_assignable : forall e e2 l e', assigned e e2 l = Some e' -> assignable e.
Proof.
  intros e e2 l e'. destruct e; cbn; try discriminate; auto. destruct (String.eqb_spec x "this"); auto. discriminate.
Qed.
Lemma bad_target : forall trailing b i e t r e' r', tokens_ok i ->
  derives trailing b Target i (VE e) (t :: r) -> t_type t = Equal -> ~ assignable e ->
  ~ derives trailing b Expression i (VE e') r'.
Proof.
  intros trailing b i e t r e' r' OK T K NA D.
  assert (NE : ~ starts [Eof] i) by (eapply not_first; [exact T|discriminate|reflexivity]).
  inversion D; subst.
  - match goal with H : derives _ _ Target _ _ _ |- _ =>
      destruct (unambiguous _ _ Target _ (VE e) _ _ _ OK NE Logic.I T H) as [_ <-] end.
    match goal with H : ~ starts _ _ |- _ => apply H; left; auto end.
  - match goal with H : derives _ _ Target _ (VE ?e1) _ |- _ =>
      destruct (unambiguous _ _ Target _ (VE e) _ _ _ OK NE Logic.I T H) as [Q _] end.
    injection Q as <-. apply NA. eapply assigned_assignable; eauto.
Qed.
Lemma bad_target_expression : forall toks oc e t r, tokens_ok toks ->
  derives false false Target toks (VE e) (t :: r) -> t_type t = Equal -> ~ assignable e ->
  forall e', parse_expression_tokens toks false oc <> Done (Ok e').
Proof.
  intros toks oc e t r OK T K NA e' H. apply parse_expression_exact in H; auto. destruct H as (eof & _ & H).
  eapply bad_target; eauto.
Qed.
Lemma bad_target_declaration : forall trailing b i e t r st r', tokens_ok i ->
  derives trailing b Target i (VE e) (t :: r) -> t_type t = Equal -> ~ assignable e ->
  ~ starts [LeftBrace; Fun] i -> ~ derives trailing b Declaration i (VS st) r'.
Proof.
  intros trailing b i e t r st r' OK T K NA NF D.
  assert (F := first _ _ _ _ _ _ T ltac:(discriminate)). cbn [first_of] in F.
  assert (NK : forall k j, token_then k i j -> ~ In k expr_first \/ k = LeftBrace \/ k = Fun -> False).
  { intros k j (u & -> & U) [X|X].
    - apply X. cbn in F |- *. rewrite <- U. tauto.
    - apply NF. cbn. rewrite U. intuition. }
  assert (NX : forall u j k, i = u :: j -> t_type u = k -> ~ In k expr_first -> False).
  { intros u j k -> <- X. apply X. exact F. }
  assert (EX : forall st' r1, derives trailing b ExpressionStatement i (VS st') r1 -> False).
  { intros st' r1 X. inversion X; subst; eapply bad_target; eauto. }
  inversion D; subst;
    try (match goal with H : token_then ?k i _ |- _ => apply (NK k _ H); cbn; intuition discriminate end).
  match goal with H : derives _ _ Statement _ _ _ |- _ => rename H into DS end.
  inversion DS; subst;
    try (match goal with H : token_then ?k i _ |- _ => apply (NK k _ H); cbn; intuition discriminate end);
    try (match goal with H : t_type ?u = ?k |- _ => apply (NX u _ k eq_refl H); cbn; intuition discriminate end).
  eapply EX; eauto.
Qed.
Lemma bad_target_program : forall toks trailing oc i e t r, tokens_ok toks -> declarations trailing false toks i ->
  derives trailing false Target i (VE e) (t :: r) -> t_type t = Equal -> ~ assignable e ->
  ~ starts [LeftBrace; Fun] i -> forall l, parse_tokens toks trailing oc <> Done (Ok l).
Proof.
  intros toks trailing oc i e t r OK D T K NA NF l H. apply parse_tokens_exact in H; auto.
  destruct H as (eof & KE & H).
  assert (NN : i <> nil) by (intros ->; apply first in T; [contradiction|discriminate]).
  destruct (program_reaches _ _ _ _ D NN _ _ OK H) as (l' & P).
  inversion P; subst.
  - match goal with S : starts [Eof] _ |- _ => revert S end.
    eapply not_first; [exact T|discriminate|reflexivity].
  - match goal with DD : derives _ _ Declaration _ _ _ |- _ => revert DD end.
    eapply bad_target_declaration; eauto. eapply suffix_ok; eauto. now apply declarations_suffix with trailing false.
Qed.

(** ** For loops *)
Lemma for_desugared : forall trailing b i st r, derives trailing b Declaration i (VS st) r -> starts [For] i ->
  exists i2 i3 i5 i7 init cond inc body,
    (exists i1, token_then For i i1 /\ paren_then i1 i2) /\
    derives trailing b ForInit i2 (VO init) i3 /\
    match cond with
    | None => token_then Semicolon i3 i5
    | Some c => exists i4, derives trailing b Expression i3 (VE c) i4 /\ token_then Semicolon i4 i5
    end /\
    match inc with
    | None => token_then RightParen i5 i7
    | Some e => exists i6, derives trailing b Expression i5 (VE e) i6 /\ token_then RightParen i6 i7
    end /\
    derives trailing true Branch i7 (VS body) r /\ desugared init cond inc body st.
Proof.
  intros trailing b i st r D F.
  assert (NK : forall k j, token_then k i j -> k = For).
  { intros k j (u & -> & U). destruct F as [F|[]]. congruence. }
  assert (EX : forall N v r', derives trailing b N i v r' -> first_of N <> nil -> ~ In For (first_of N) -> False).
  { intros N v r' X NE NI. apply first in X; auto. destruct i; [contradiction|]. destruct F as [F|[]]. cbn in X.
    rewrite <- F in X. auto. }
  inversion D; subst;
    try (match goal with H : token_then ?k i _ |- _ => apply NK in H; discriminate end).
  match goal with H : derives _ _ Statement _ _ _ |- _ => rename H into DS end.
  inversion DS; subst;
    try (match goal with H : token_then ?k i _ |- _ => apply NK in H; discriminate end);
    try (match goal with H : t_type ?u = ?k |- _ => destruct F as [F|[]]; congruence end).
  - exfalso. eapply EX; [eassumption|discriminate|]. cbn. intuition discriminate.
  - match goal with
    | HC : derives _ _ Condition _ (VE ?c) ?i4, HS : token_then Semicolon ?i4 _,
      HI : derives _ _ Increment _ (VOE ?inc) ?i6, HR : token_then RightParen ?i6 _ |- _ =>
      rename HC into C; rename HS into S4; rename HI into INC; rename HR into R6 end.
    inversion C; subst; inversion INC; subst.
    + do 4 eexists. exists init, None, None, st0. repeat split; eauto. destruct init; cbn; repeat constructor.
    + do 4 eexists. exists init, None, (Some e), st0. repeat split; eauto. destruct init; cbn; repeat constructor.
    + do 4 eexists. exists init, (Some c), None, st0. repeat split; eauto. destruct init; cbn; repeat constructor.
    + do 4 eexists. exists init, (Some c), (Some e), st0. repeat split; eauto. destruct init; cbn; repeat constructor.
Qed.

(** ** Entries and members in order *)
Lemma in_order_later : forall trailing b m p i, in_order trailing b i m -> in_order trailing b (p ++ i) m.
Proof.
  intros trailing b [|[k e] m] p i; cbn; auto. intros (p' & t & c & j & r & -> & H).
  exists (p ++ p'), t, c, j, r. now rewrite app_assoc.
Qed.
Lemma entries_in_order : forall trailing b i m r, derives trailing b Entries i (VM m) r -> in_order trailing b i m.
Proof.
  intros trailing b i m r H. remember Entries as N. remember (VM m) as v. revert m Heqv HeqN.
  induction H; intros m0 Qv QN; try discriminate; injection Qv as <-; cbn.
  - exact Logic.I.
  - exists nil, t, c, i, r. auto.
  - exists nil, t, c, i, r1. repeat split; auto.
    destruct (suffix_separator _ _ H2) as [p ->]. apply in_order_later. now apply IHderives2.
Qed.
Lemma function_loc : forall trailing b l i v r, derives trailing b (Function l) i v r ->
  exists ps body, v = VF (FunDef ps body PlainFunction l).
Proof. intros trailing b l i v r H. inversion H; subst; eauto. Qed.
Lemma methods_members : forall trailing b k i ms r, derives trailing b (Methods k) i (VMs ms) r ->
  members trailing b i ms.
Proof.
  intros trailing b k i ms r H. remember (Methods k) as N. remember (VMs ms) as v. revert ms Heqv HeqN.
  induction H; intros ms0 Qv QN; try discriminate; injection Qv as <-.
  - exact Logic.I.
  - destruct (function_loc _ _ _ _ _ _ H0) as (ps & body & Q). injection Q as ->. destruct H as [-> K].
    cbn [members with_kind]. exists nil, n, i1, PlainFunction, r1. repeat split; auto.
    left. split; auto. unfold method_kind. destruct (String.eqb_spec (t_lexeme n) "init"); auto.
  - destruct (function_loc _ _ _ _ _ _ H1) as (ps & body & Q). injection Q as ->. destruct H0 as [-> K].
    destruct H as (c & -> & C).
    cbn [members with_kind]. exists [c], n, i1, PlainFunction, r1. repeat split; eauto.
Qed.
