(** The locations in a statement are those of its own tokens, and so are those of its errors (C28, C103). *)
From Verif Require Import Base F64 Token Ast Scanner Parser Resolver Driver AstInd SpecGrammar SpecTree SpecLex SpecScan SpecOwn
  ScanFinal ScanErrors ParseFirst ParseTree ParseProps SizeTree Prefix PrefixScan PrefixFinal.
From Coq Require Import Lia.
Local Open Scope string_scope.
Local Open Scope list_scope.

(** ** Own tokens *)
Lemma in_cut : forall p (e t : token), In t (p ++ [e]) -> t_type e = Eof -> t_type t <> Eof -> In t p.
Proof. intros p e t I E N. apply in_app_or in I. destruct I as [I|[<-|[]]]; auto. congruence. Qed.
Lemma kind_cut : forall p e k l, t_type e = Eof -> k <> Eof -> at_kind (p ++ [e]) k l -> at_kind p k l.
Proof. intros p e k l E N (t & I & K & L). exists t. split; auto. eapply in_cut; eauto. congruence. Qed.
Lemma name_cut : forall p e x l, t_type e = Eof -> at_name (p ++ [e]) x l -> at_name p x l.
Proof. intros p e x l E (t & I & K & L). exists t. split; auto. eapply in_cut; eauto. congruence. Qed.

Lemma located_cut : forall p e1 e2 x, t_type e1 = Eof -> t_type e2 = Eof -> tloc e1 <> tloc e2 ->
  located (p ++ [e1]) x -> located (p ++ [e2]) x -> located p x.
Proof.
  intros p e1 e2 x E1 E2 N H1 H2.
  assert (K : forall k l, k <> Eof -> at_kind (p ++ [e1]) k l -> at_kind p k l) by (intros k l Nk Hk; exact (kind_cut p e1 k l E1 Nk Hk)).
  assert (M : forall x l, at_name (p ++ [e1]) x l -> at_name p x l) by (intros y l Hk; exact (name_cut p e1 y l E1 Hk)).
  assert (I : forall t, In t (p ++ [e1]) -> t_type t <> Eof -> In t p) by (intros t Ht Nt; exact (in_cut p e1 t Ht E1 Nt)).
  destruct x as [st|e|c|f]; cbn in *.
  - destruct st; auto; try (apply K; [discriminate|auto]; fail).
    + destruct f; auto.
    + destruct H1 as [[l H1]|[l H1]]; [left|right]; exists l; apply K; auto; discriminate.
    + destruct H1 as [l H1]. exists l. apply K; auto; discriminate.
  - destruct e; auto.
    + destruct H1 as [A (t & B & C & D)]. split; [apply K; auto; discriminate|]. exists t. split; auto. apply I; auto.
      destruct C; congruence.
    + destruct H1 as (t & A & B), H2 as (t' & A' & B'). apply in_app_or in A, A'.
      destruct A as [A|[<-|[]]]; [eauto|]. destruct A' as [A'|[<-|[]]]; [eauto|]. congruence.
    + apply K; auto. destruct op; discriminate.
    + apply K; auto; discriminate.
    + destruct H1 as [A (l' & B)]. split; [apply K; auto; discriminate|eauto].
    + apply K; auto; discriminate.
    + eapply Forall_impl; [|exact H1]. intros kv [(l & A)|(t & A & B & C)]; [left; eauto|right].
      exists t. split; auto. apply I; auto. congruence.
    + destruct H1 as (t & A & B & C). exists t. split; auto. apply I; auto. congruence.
    + destruct H1 as (t & A & B & C). exists t. split; auto. apply I; auto. congruence.
    + destruct H1 as [A (l' & B)]. split; [apply K; auto; discriminate|eauto].
    + apply K; auto; discriminate.
    + destruct H1 as [A (l' & B)]. split; [apply K; auto; discriminate|eauto].
    + destruct H1 as (t & A & B & C). exists t. split; auto. apply I; auto. destruct B; congruence.
    + apply K; auto. destruct op; discriminate.
  - destruct c as [x s ms l]. destruct H1 as (A & B & C). split; auto. split.
    + destruct s as [[]|]; auto.
    + eapply Forall_impl; [|exact C]. intros [m f]; auto.
  - destruct f as [ps b k l]. eapply Forall_impl; [|exact H1]. auto.
Qed.

Lemma near_same_list : forall T e p, cut T e (p ++ T) (p ++ [e]).
Proof. induction p; cbn; constructor; auto. now left. Qed.
Lemma cut_only : forall T e s, cut T e T s -> s = [e].
Proof.
  intros T e s C. inversion C as [|t u i j' N C' Q]; subst; auto. exfalso. apply cut_length in C'. cbn in C'. lia.
Qed.
Lemma own_statement : forall trailing b i st r, derives trailing b Declaration i (VS st) r ->
  ~ starts [Colon; RightBrace; RightBracket; RightParen; Semicolon] r -> ~ this_here r ->
  exists p, i = p ++ r /\ Forall (located p) (parts st).
Proof.
  intros trailing b i st r D NT NH. destruct (derives_suffix _ _ _ _ _ _ D) as [p ->]. exists p. split; auto.
  assert (G : forall e, t_type e = Eof -> Forall (located (p ++ [e])) (parts st)).
  { intros e E. destruct (cut_off r e E NT NH trailing _ _ _ _ _ D (le_n _) _ (near_same_list r e p)) as (s & C & D').
    pose proof (all_fine (p ++ [e]) trailing _ _ _ _ _ D' (incl_refl _)) as F. cbn in F. unfold GS in F.
    eapply Forall_impl; [|exact F]. unfold shaped. tauto. }
  set (e1 := mkToken Eof "" None None 0 0). set (e2 := mkToken Eof "" None None 1 0).
  pose proof (G e1 eq_refl) as G1. pose proof (G e2 eq_refl) as G2. rewrite Forall_forall in *.
  intros x X. apply (located_cut p e1 e2 x); auto. discriminate.
Qed.
Lemma own_program : forall trailing l i eof, derives trailing false Program i (VSs l) [eof] -> t_type eof = Eof ->
  exists tss, i = concat tss ++ [eof] /\ Forall2 (fun ts st => Forall (located ts) (parts st)) tss l.
Proof.
  intros trailing l. induction l as [|st l IH]; intros i eof D E; inversion D; subst.
  - exists nil. split; auto.
  - match goal with H : derives _ _ Declaration _ _ ?r |- _ => rename H into D1; rename r into r1 end.
    match goal with H : derives _ _ Program r1 _ _ |- _ => rename H into D2 end.
    assert (N : ~ starts [Colon; RightBrace; RightBracket; RightParen; Semicolon] r1 /\ ~ this_here r1).
    { clear -D2 E. destruct l as [|st2 l]; inversion D2; subst.
      - split; [cbn; rewrite E; intuition discriminate|]. intros (t & c & i' & X & _). discriminate.
      - match goal with H : derives _ _ Declaration _ _ _ |- _ => destruct (statement_start _ _ _ _ _ H) as [A B] end.
        split; [intros X; apply A; eapply starts_incl; [exact X|inclb]|exact B]. }
    destruct (IH _ _ D2 E) as (tss & Er & F).
    destruct N as [NT NH]. destruct (own_statement _ _ _ _ _ D1 NT NH) as (p & -> & L).
    exists (p :: tss). split; [|constructor; auto]. cbn. rewrite <- app_assoc. now rewrite <- Er.
Qed.

(** ** Errors *)
Section Errors.
Variable Q : cause -> Prop.
Definition fails {A} (m : R A) : Prop := forall s c s1, m s = RErr c s1 -> Q c.
Lemma fails_ret : forall A (a : A), fails (rret a).
Proof. intros A a s c s1 H. discriminate. Qed.
Lemma fails_bind : forall A B (m : R A) (k : A -> R B), fails m -> (forall a, fails (k a)) -> fails (rbind m k).
Proof.
  intros A B m k H1 H2 s c s1. unfold rbind. destruct (m s) as [a s2|c2 s2|w] eqn:E.
  - apply H2.
  - intros X. injection X as <- <-. eapply H1; eauto.
  - discriminate.
Qed.
Lemma fails_finally : forall A (m : R A) f, fails m -> fails (rfinally m f).
Proof.
  intros A m f H s c s1. unfold rfinally. destruct (m s) as [a s2|c2 s2|w] eqn:E; try discriminate.
  intros X. injection X as <- <-. eapply H; eauto.
Qed.
Lemma fails_map : forall A B (f : A -> R B) l, Forall (fun a => fails (f a)) l -> fails (rmap f l).
Proof. induction 1; cbn [rmap]; [apply fails_ret|]. repeat (apply fails_bind; [auto|intros]). apply fails_ret. Qed.
Lemma fails_never : forall A (m : R A), (forall s c s1, m s <> RErr c s1) -> fails m.
Proof. intros A m H s c s1 E. exfalso. exact (H _ _ _ E). Qed.
Lemma fails_begin : fails begin_scope.
Proof. apply fails_never. intros s c s1. unfold begin_scope. destruct (_ <=? _)%N; discriminate. Qed.
Lemma fails_get : forall A (f : rstate -> A), fails (rget f).
Proof. intros A f. apply fails_never. discriminate. Qed.
Lemma fails_modify : forall f, fails (rmodify f).
Proof. intros f. apply fails_never. discriminate. Qed.
Lemma fails_one : forall A (c : cause), Q c -> fails (rfail (A := A) c).
Proof. intros A c H s c' s1 E. injection E as <- _. exact H. Qed.
Definition full : string := "Too many local variables in function.".
Lemma fails_limit : forall n x l, Q (cause_at l x full) -> fails (ensure_scope_index_limit n x l).
Proof. intros n x l H. unfold ensure_scope_index_limit. destruct (_ <? _)%N; [now apply fails_one|apply fails_ret]. Qed.
Lemma fails_define : forall x l, (forall m, Q (cause_at l x m)) -> fails (define x l).
Proof.
  intros x l H s c s1. unfold define. destruct (scopes s) as [|sc r]; [discriminate|]. unfold rbind.
  destruct (ensure_scope_index_limit _ x l s) as [u s2|c2 s2|w] eqn:E.
  - destruct (_ && _); [|discriminate]. intros X. injection X as <- _. apply H.
  - intros X. injection X as <- _. exact (fails_limit _ _ _ (H full) _ _ _ E).
  - discriminate.
Qed.
Lemma fails_declare : forall x l, (forall m, Q (cause_at l x m)) -> fails (declare x l).
Proof.
  intros x l H s c s1. unfold declare. destruct (scopes s) as [|sc r]; [discriminate|]. unfold rbind.
  destruct (ensure_scope_index_limit _ x l s) as [u s2|c2 s2|w] eqn:E.
  - destruct (match scope_get sc x with None => _ | Some _ => _ end) as [i d].
    destruct (_ && _); [|discriminate]. intros X. injection X as <- _. apply H.
  - intros X. injection X as <- _. exact (fails_limit _ _ _ (H full) _ _ _ E).
  - discriminate.
Qed.
Lemma fails_lookup : forall x l, Q (cause_at l x full) -> fails (resolve_local_variable x l).
Proof.
  intros x l H s c s1. unfold resolve_local_variable. destruct (lookup_scopes _ _ _) as [[d v]|]; [discriminate|].
  unfold rbind, forward_reserve_global_var. destruct (rev (scopes s)) as [|g r]; [discriminate|]. unfold rbind.
  destruct (ensure_scope_index_limit _ x l s) as [u s2|c2 s2|w] eqn:E.
  - destruct (scope_get g x); [discriminate|]. destruct (_ =? _)%nat; discriminate.
  - intros X. injection X as <- _. exact (fails_limit _ _ _ H _ _ _ E).
  - discriminate.
Qed.
Lemma fails_super : forall A (a : A) x l,
  fails (rdo begin_scope ;; fun s => match define x l s with
                                     | ROk _ s1 => ROk a s1
                                     | RErr c s1 => RErr c (end_scope s1)
                                     | RPanic w => RPanic w
                                     end).
Proof.
  intros A a x l s c s1. unfold rbind, begin_scope. destruct (_ <=? _)%N; cbn; discriminate.
Qed.
Lemma fails_this : forall A B x l (k : R A) f (g : A -> B), fails k ->
  fails (rdo begin_scope ;; rlet a <- rfinally (rdo define x l ;; k) f ;; rret (g a)).
Proof.
  intros A B x l k f g H s c s1. unfold rbind, begin_scope, rfinally. destruct (_ <=? _)%N; cbn; [discriminate|].
  match goal with |- context [k ?z] => destruct (k z) as [a s2|c2 s2|w] eqn:E end; cbn; try discriminate.
  intros X. injection X as <- _. eapply H; eauto.
Qed.
End Errors.

Section Blame.
Variable ts : list token.
Hypothesis keywords : forall t, In t ts ->
  (t_type t = Super -> t_lexeme t = "super") /\ (t_type t = Return -> t_lexeme t = "return").
Definition blamed (c : cause) : Prop := exists t, In t ts /\ points_at t c.
Lemma blame_name : forall x l m, at_name ts x l -> blamed (cause_at l x m).
Proof. intros x l m (t & I & _ & <- & <-). exists t. split; auto. split; cbn; auto. Qed.
Lemma blame_kind : forall k x l m, at_kind ts k l -> (forall t, In t ts -> t_type t = k -> t_lexeme t = x) ->
  blamed (cause_at l x m).
Proof. intros k x l m (t & I & K & <-) H. exists t. split; auto. split; cbn; auto. rewrite (H t I K). auto. Qed.

Definition at_fault (p : list part) {A} (m : R A) : Prop := Forall (located ts) p -> fails blamed m.
Ltac locs := repeat match goal with
  | H : Forall (located ts) (_ ++ _) |- _ => apply Forall_app in H; destruct H
  | H : Forall (located ts) (_ :: _) |- _ => inversion H; clear H; subst
  end.
Ltac go := repeat match goal with
  | |- fails _ (rbind _ _) => apply fails_bind; [|intros ?]
  | |- fails _ (rret _) => apply fails_ret
  | |- fails _ (rfinally _ _) => apply fails_finally
  | |- fails _ begin_scope => apply fails_begin
  | |- fails _ (rget _) => apply fails_get
  | |- fails _ (rmodify _) => apply fails_modify
  end; auto.
Lemma parts_all : forall A (f : A -> list part) l (P : A -> Prop), Forall (fun a => Forall (located ts) (f a) -> P a) l ->
  Forall (located ts) (flat_map f l) -> Forall P l.
Proof.
  induction 1; intros L; cbn in L; constructor; apply Forall_app in L; destruct L; auto.
Qed.
Lemma faults :
  (forall st, at_fault (parts st) (resolve_statement st)) /\
  (forall e, at_fault (expr_parts e) (resolve_expression e)) /\
  (forall c, at_fault (class_parts c) (resolve_class c)) /\
  (forall f, forall t, at_fault (fun_parts f) (resolve_function f t)).
Proof.
  unfold at_fault. apply tree_ind; intros; cbn [parts expr_parts class_parts fun_parts] in *;
    cbn [resolve_statement resolve_expression resolve_class resolve_function]; locs.
  all: try (go; fail).
  all: try (go; apply fails_map; eapply parts_all; [|eassumption]; eassumption).
  - apply fails_bind; [|intros ?; go]. apply fails_define. intros m. destruct f. now apply blame_name.
  - go. destruct e as [e|]; cbn in *; go.
  - apply fails_bind; [|intros ?; go]. unfold check_return. go.
    assert (B : forall m, blamed (cause_at l "return" m)).
    { intros m. eapply blame_kind; [eassumption|]. intros t It. apply keywords. exact It. }
    destruct a; try destruct (is_nil_literal e); try apply fails_one; auto using fails_ret.
  - go; [apply fails_declare|apply fails_define]; intros m; now apply blame_name.
  - go. apply fails_lookup. destruct H3 as ((t & It & K & <-) & _). exists t. split; auto. split; cbn; auto.
  - go. apply fails_map. eapply parts_all; [|eassumption]. eapply Forall_impl; [|exact H]. intros [k e] He L. cbn in *. go.
  - assert (B : forall m, blamed (cause_at l "super" m)).
    { intros m'. cbn in *. eapply blame_kind; [apply H2|]. intros t It. apply keywords. exact It. }
    go; [|apply fails_lookup; auto]. unfold check_super. go. destruct a; try apply fails_one; auto using fails_ret.
  - assert (B : forall m, blamed (cause_at l x m)).
    { intros m. match goal with H : located ts _ |- _ => destruct H as (t & It & K & E1 & E2) end. exists t. split; auto. split; cbn; auto. left. now rewrite E1. }
    go; [| |now apply fails_lookup].
    + unfold check_this. go. destruct a; auto using fails_ret. destruct (x =? "this") eqn:E; auto using fails_ret.
      apply String.eqb_eq in E. subst x. apply fails_one. auto.
    + intros s c s1. unfold check_own_initializer. destruct (scopes s) as [|sc r]; [discriminate|].
      destruct (scope_get sc x) as [w|]; [|discriminate]. destruct (v_state w); try discriminate.
      intros X. injection X as <- _. auto.
  - match goal with H : located ts (PClass _) |- _ => destruct H as (A & B & C) end.
    apply fails_bind; [apply fails_define; intros m; now apply blame_name|intros ?].
    apply fails_bind; [|intros ?].
    + unfold check_self_inheritance. destruct s as [[]|]; auto using fails_ret. destruct (_ =? _); auto using fails_ret.
      apply fails_one. now apply blame_name.
    + apply fails_bind; [|intros ?].
      * destruct s as [e|]; cbn in *; [|apply fails_ret]. apply fails_bind; [|intros; apply fails_ret].
        apply fails_bind; [auto|intros e']. apply fails_super.
      * apply fails_this. apply fails_map. eapply parts_all; [|eassumption].
        eapply Forall_impl; [|exact H0]. intros [y f] Hf L. cbn in *. go.
  - match goal with H : located ts (PFun _) |- _ => cbn in H; rename H into A end.
    go; apply fails_map.
    + eapply Forall_impl; [|exact A]. intros p Hp. apply fails_define. intros m. now apply blame_name.
    + eapply parts_all; eassumption.
Qed.
End Blame.

(** ** All errors of a program *)
Lemma points_lower : forall toks lo lo' cs, lo' <= lo -> points_in toks lo cs -> points_in toks lo' cs.
Proof. intros toks lo lo' cs L H. inversion H as [|x j t c cs' B N Q R]; subst; [constructor|]. apply pi_cons with (j := j) (t := t); auto. lia. Qed.
Definition keyword_texts (toks : list token) : Prop := forall t, In t toks ->
  (t_type t = Super -> t_lexeme t = "super") /\ (t_type t = Return -> t_lexeme t = "return").
Lemma loop_errors : forall tss l, Forall2 (fun ts st => Forall (located ts) (parts st)) tss l -> keyword_texts (concat tss) ->
  forall done errs s done' errs' s', resolve_loop l done errs s = Done (done', errs', s') ->
  exists cs, errs' = errs ++ cs /\ forall pre rest, points_in (pre ++ concat tss ++ rest) (length pre) cs.
Proof.
  induction 1 as [|ts st tss l H F IH]; intros K done errs s done' errs' s' E; cbn in *.
  - injection E as <- <- <-. exists nil. split; [now rewrite app_nil_r|constructor].
  - assert (K2 : keyword_texts (concat tss)) by (intros t It; apply K; apply in_or_app; auto).
    destruct (resolve_statement st s) as [st' s1|c s1|w] eqn:Es; [| |discriminate].
    + destruct (IH K2 _ _ _ _ _ _ E) as (cs & -> & P). exists cs. split; auto. intros pre rest.
      specialize (P (pre ++ ts) rest). rewrite app_length, <- !app_assoc in P. rewrite <- app_assoc.
      eapply points_lower; [|exact P]. lia.
    + destruct (IH K2 _ _ _ _ _ _ E) as (cs & -> & P). exists (c :: cs). split; [now rewrite <- app_assoc|]. intros pre rest.
      assert (K1 : keyword_texts ts) by (intros t It; apply K; apply in_or_app; auto).
      destruct (proj1 (faults ts K1) st H _ _ _ Es) as (t & It & Pt).
      apply In_nth_error in It. destruct It as (j & Ej).
      assert (J : j < length ts) by (apply nth_error_Some; congruence).
      apply pi_cons with (j := length pre + j) (t := t); auto; [lia| |].
      * rewrite nth_error_app2 by lia. replace (length pre + j - length pre) with j by lia.
        rewrite <- app_assoc. rewrite nth_error_app1; auto.
      * specialize (P (pre ++ ts) rest). rewrite app_length, <- !app_assoc in P. rewrite <- app_assoc.
        eapply points_lower; [|exact P]. lia.
Qed.

Lemma scanned_keywords : forall U gs toks, sane U -> valid_source gs -> scan_tokens U gs = Done (Ok toks) -> keyword_texts toks.
Proof.
  intros U gs toks Sn V T t I.
  assert (W : is_word_kind (t_type t) = true -> word_kind (t_lexeme t) (t_type t)).
  { intros Kw. destruct (ScanFinal.words U Sn gs toks t V T I Kw) as (b & g & cs & r & _ & _ & _ & _ & W & _). exact W. }
  split; intros Kt; rewrite Kt in W; specialize (W eq_refl); inversion W as [w k H|w H]; subst; cbn in H; intuition congruence.
Qed.

Theorem own_parse : forall (repl : bool) U oc gs toks l, sane U -> valid_source gs -> scan_tokens U gs = Done (Ok toks) ->
  (if repl then parse_repl_line U oc gs else parse U oc gs) = Done (Ok l) -> own_tokens toks l.
Proof.
  intros repl U oc gs toks l Sn V T H.
  assert (D : exists eof, t_type eof = Eof /\ derives repl false Program toks (VSs l) [eof]).
  { destruct repl; [apply (parse_repl_exact U Sn oc gs V toks l T)|apply (parse_exact U Sn oc gs V toks l T)]; exact H. }
  destruct D as (eof & E & D). destruct (own_program _ _ _ _ D E) as (tss & -> & F). exists tss, eof. auto.
Qed.
Theorem errors_point : forall toks l s cs s', own_tokens toks l -> keyword_texts toks ->
  resolver_resolve l s = Done (Err cs, s') -> points_in toks 0 cs.
Proof.
  intros toks l s cs s' (tss & eof & -> & E & F) K H. unfold resolver_resolve, obind in H.
  destruct (resolve_loop l nil nil s) as [[[d e] s1]|w| |] eqn:L; try discriminate.
  assert (K' : keyword_texts (concat tss)) by (intros t It; apply K; apply in_or_app; auto).
  destruct (loop_errors _ _ F K' _ _ _ _ _ _ L) as (cs' & X & P). cbn in X. subst e.
  assert (cs' = cs) by (destruct cs'; congruence). subst cs'. exact (P nil [eof]).
Qed.
Theorem run_errors_point : forall (repl : bool) U oc gs toks l s cs s', sane U -> valid_source gs -> scan_tokens U gs = Done (Ok toks) ->
  (if repl then parse_repl_line U oc gs else parse U oc gs) = Done (Ok l) ->
  resolver_resolve l s = Done (Err cs, s') -> points_in toks 0 cs.
Proof.
  intros repl U oc gs toks l s cs s' Sn V T H R. eapply errors_point; [eapply own_parse; eauto| |exact R].
  eapply scanned_keywords; eauto.
Qed.
Theorem statements_point : forall (repl : bool) U oc gs toks l, sane U -> valid_source gs -> scan_tokens U gs = Done (Ok toks) ->
  (if repl then parse_repl_line U oc gs else parse U oc gs) = Done (Ok l) ->
  exists tss eof, toks = concat tss ++ [eof] /\ t_type eof = Eof /\
    Forall2 (fun ts st => Forall (located ts) (parts st) /\
      forall s c s', resolve_statement st s = RErr c s' -> exists t, In t ts /\ points_at t c) tss l.
Proof.
  intros repl U oc gs toks l Sn V T H. pose proof (scanned_keywords _ _ _ Sn V T) as K.
  destruct (own_parse _ _ _ _ _ _ Sn V T H) as (tss & eof & -> & E & F). exists tss, eof. split; [auto|split; [auto|]].
  assert (K' : keyword_texts (concat tss)) by (intros t It; apply K; apply in_or_app; auto). clear - K' F.
  induction F as [|ts st tss l L F IH]; constructor.
  - split; auto. intros s c s' X. assert (K1 : keyword_texts ts) by (intros t It; apply K'; cbn; apply in_or_app; auto).
    exact (proj1 (faults ts K1) st L _ _ _ X).
  - apply IH. intros t It. apply K'. cbn. apply in_or_app. auto.
Qed.
