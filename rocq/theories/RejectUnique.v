(** A token list has only one list of errors in SpecReject.v. *)
From Verif Require Import Base F64 Token Ast Scanner Parser SpecGrammar ParseRun ParseSound
  ParseTop ParseFirst ParseComplete ParseMore SpecReject ParseReject.
From Coq Require Import Lia.

Section Unique.
Variable trailing : bool.
Variable ending : token.
Notation rejects := (rejects trailing ending).
Notation steps_of := (steps_of trailing ending).
Notation parses := (parses trailing).
Notation inside := SpecReject.inside.

(** ** Steps without an error *)
Inductive passes : bool -> list step -> list token -> list token -> Prop :=
| ps_nil : forall b i, passes b nil i i
| ps_skip : forall b st t i r, passes b st i r -> passes b (Skip :: st) (t :: i) r
| ps_need : forall b lv ks msg st t i r, ahead ks (t :: i) = true -> passes b st i r ->
    passes b (Need lv ks msg :: st) (t :: i) r
| ps_sub : forall b p st i r1 r, parses b p i r1 -> passes b st r1 r -> passes b (Sub p :: st) i r
| ps_last : forall b p st i r, parses b p i r -> passes b (Last p :: st) i r
| ps_target : forall b k st i e r1 r, derives trailing b Target i (VE e) r1 ->
    passes b (k e r1 ++ st) r1 r -> passes b (TargetThen k :: st) i r
| ps_look : forall b k st i r, passes b (k i ++ st) i r -> passes b (Look k :: st) i r.

(** The phrases the table refers to. *)
Definition whole (p : phrase) : Prop :=
  match p with
  | Of (Expression | Binary _ | Primary | Elements | Declaration | ForInit | Branch)
  | FunctionBody | ArgumentsAfter 0 | ParametersAfter 0 | EntriesAfter nil => True
  | _ => False
  end.
Definition sensible (p : phrase) : Prop :=
  match p with
  | Of (Statements k) | Of (Methods k) => k = Outdent \/ k = RightBrace
  | Of (BinaryTail _ _) | Of (CallTail _) | Of Arguments | Of Entries | Of Parameters
  | Of (Function _) | Of Block | Of Condition | Of Increment | Of Program => False
  | _ => True
  end.
Inductive good : list step -> Prop :=
| g_nil : good nil
| g_skip : forall st, good st -> good (Skip :: st)
| g_need : forall lv ks msg st, good st -> good (Need lv ks msg :: st)
| g_reject : forall c st, good st -> good (Reject c :: st)
| g_sub : forall p st, whole p -> sensible p -> good st -> good (Sub p :: st)
| g_last : forall p st, sensible p -> good st -> good (Last p :: st)
| g_target : forall k st, (forall e r, good (k e r ++ st)) -> good (TargetThen k :: st)
| g_look : forall k st, (forall i, good (k i ++ st)) -> good (Look k :: st).
Ltac goods := repeat (cbn [app]; match goal with
  | |- forall _, _ => intro
  | |- good (if ?x then _ else _) => destruct x
  | |- good (match ?x with _ => _ end) => destruct x
  | |- good ((if ?x then _ else _) ++ _) => destruct x
  | |- good ((match ?x with _ => _ end) ++ _) => destruct x
  | |- good ((if ?x then _ else _) :: _) => destruct x
  | |- good nil => apply g_nil
  | |- good (_ :: _) => constructor
  | |- whole _ => exact I
  | |- sensible _ => first [exact I|cbn [sensible]; auto]
  end).
Lemma steps_good : forall b p, sensible p -> good (steps_of b p).
Proof.
  intros b p S. destruct p as [[]| | | | | | |]; cbn [sensible] in S; try contradiction;
    cbn [SpecReject.steps_of];
    unfold need, maybe, unless, wrong, block, opening; goods.
Qed.

(** ** Remainders are unique *)
Definition fit (i : list token) : Prop := i = nil \/ tokens_ok i.
Lemma fit_suffix : forall i r, fit i -> suffix i r -> fit r.
Proof.
  intros i r F S. destruct r as [|t r]; [now left|]. right. destruct F as [->|F].
  - destruct S as [[|] S]; discriminate.
  - eapply suffix_ok; eauto. discriminate.
Qed.
Lemma fit_tail : forall t i, fit (t :: i) -> fit i.
Proof. intros t i F. eapply fit_suffix; eauto. exists [t]. reflexivity. Qed.
Lemma fit_first : forall b N i v r, fit i -> derives trailing b N i v r -> first_of N <> nil ->
  existsb (tt_eqb Eof) (first_of N) = false -> tokens_ok i /\ ~ starts [Eof] i.
Proof.
  intros b N i v r F H NE X. split.
  - destruct F as [->|F]; auto. apply first in H; auto. contradiction.
  - eapply not_first; eauto. cbn. now rewrite X.
Qed.
Lemma function_any : forall b l l' i f r, derives trailing b (Function l) i (VF f) r ->
  exists f', derives trailing b (Function l') i (VF f') r.
Proof. intros b l l' i f r H. inversion H; subst; eexists; [eapply d_function_none|eapply d_function_some]; eauto. Qed.
Lemma function_val : forall b l i v r, derives trailing b (Function l) i v r -> exists f, v = VF f.
Proof. intros b l i v r H. inversion H; eauto. Qed.
Lemma parses_suffix : forall b p i r, parses b p i r -> suffix i r.
Proof.
  intros b p i r H. destruct p; cbn [SpecReject.parses] in H;
    repeat match goal with H : exists _, _ |- _ => destruct H as [? H] end;
    try (destruct H as [H _]); eapply derives_suffix; exact H.
Qed.
Lemma unique_yield : forall toks b A (m : P A) s a a' r r', yields toks b m s a r -> yields toks b m s a' r' -> a = a' /\ r = r'.
Proof.
  intros toks b A m s a a' r r' (s1 & E1 & _ & R1) (s2 & E2 & _ & R2). rewrite E1 in E2. injection E2 as <- <-.
  split; congruence.
Qed.
Lemma parses_unique : forall b p i r r', whole p -> fit i -> parses b p i r -> parses b p i r' -> r = r'.
Proof.
  intros b p i r r' W F H H'.
  assert (S : forall N, (forall v r, derives trailing b N i v r -> simple N v) -> first_of N <> nil ->
    existsb (tt_eqb Eof) (first_of N) = false ->
    (exists v, derives trailing b N i v r) -> (exists v, derives trailing b N i v r') -> r = r').
  { intros N SI NE X (v & D) (v' & D'). destruct (fit_first _ _ _ _ _ F D NE X) as [OK E].
    exact (proj2 (unambiguous _ _ _ _ _ _ _ _ OK E (SI _ _ D) D D')). }
  assert (SI : forall N v r, derives trailing b N i v r ->
    match N with
    | BinaryTail _ _ | CallTail _ | Arguments | Elements | Entries | Parameters | Statements _ | Methods _ | Program => False
    | _ => True end -> simple N v).
  { intros N v r0 D M. apply derives_simple in D. destruct N; try contradiction; auto. apply D. }
  destruct p as [N| |lv| |[|n]|[|n]|[|k seen]|]; cbn [whole] in W; try contradiction; cbn [SpecReject.parses] in H, H'.
  - destruct N; try contradiction; try (eapply S; [| | |exact H|exact H']; [intros; eapply SI; eauto; exact Logic.I|discriminate|reflexivity]).
    destruct H as (v & H), H' as (v' & H').
    destruct (fit_first _ _ _ _ _ F H ltac:(discriminate) eq_refl) as [OK E].
    assert (O := start_okay i b OK E).
    assert (V : exists es, v = VEs es) by (inversion H; eauto).
    assert (V' : exists es, v' = VEs es) by (inversion H'; eauto).
    destruct V as (es & ->), V' as (es' & ->).
    apply (complete_all i trailing true OK) in H. apply (complete_all i trailing true OK) in H'.
    cbn [complete] in H, H'.
    exact (proj2 (unique_yield _ _ _ _ _ _ _ _ _
      (H (Datatypes.S (length i)) (Datatypes.S (length i)) nil (start b) O eq_refl ltac:(lia) ltac:(lia))
      (H' (Datatypes.S (length i)) (Datatypes.S (length i)) nil (start b) O eq_refl ltac:(lia) ltac:(lia)))).
  - destruct H as (l & v & H), H' as (l' & v' & H').
    destruct (function_val _ _ _ _ _ H) as (f & ->), (function_val _ _ _ _ _ H') as (f' & ->).
    destruct (function_any _ _ l _ _ _ H') as (f2 & H2).
    apply (S (Function l)); [intros; eapply SI; eauto; exact Logic.I|discriminate|reflexivity|eauto|eauto].
  - destruct H as (es & H & L), H' as (es' & H' & L').
    destruct (fit_first _ _ _ _ _ F H ltac:(discriminate) eq_refl) as [OK E].
    assert (O := start_okay i b OK E).
    apply (complete_all i trailing true OK) in H. apply (complete_all i trailing true OK) in H'.
    cbn [complete] in H, H'.
    exact (proj2 (unique_yield _ _ _ _ _ _ _ _ _
      (H (Datatypes.S (length i)) (Datatypes.S (length i)) nil (start b) O eq_refl ltac:(lia) ltac:(lia) L)
      (H' (Datatypes.S (length i)) (Datatypes.S (length i)) nil (start b) O eq_refl ltac:(lia) ltac:(lia) L'))).
  - destruct H as (es & H & L), H' as (es' & H' & L').
    destruct (fit_first _ _ _ _ _ F H ltac:(discriminate) eq_refl) as [OK E].
    assert (O := start_okay i b OK E).
    apply (complete_all i trailing true OK) in H. apply (complete_all i trailing true OK) in H'.
    cbn [complete] in H, H'.
    exact (proj2 (unique_yield _ _ _ _ _ _ _ _ _
      (H (Datatypes.S (length i)) nil (start b) O eq_refl ltac:(lia) L)
      (H' (Datatypes.S (length i)) nil (start b) O eq_refl ltac:(lia) L'))).
  - destruct H as (m & H & ND & _), H' as (m' & H' & ND' & _).
    assert (Z : i = nil \/ starts [Eof] i \/ (tokens_ok i /\ ~ starts [Eof] i)).
    { destruct F as [->|OK]; auto. destruct i as [|t i]; auto. right. cbn [starts].
      destruct (token_type_eq_dec Eof (t_type t)); [left; left; auto|right; split; [exact OK|intros [Q|[]]; auto]]. }
    assert (NO : i = nil \/ starts [Eof] i -> ~ entry_here i).
    { intros Y (t & c & q & -> & T & C). destruct Y as [Y|[Y|[]]]; [discriminate|].
      rewrite <- Y in T. cbn in T. intuition discriminate. }
    assert (ST : i = nil \/ starts [Eof] i -> forall m r, derives trailing b Entries i (VM m) r -> r = i).
    { intros Y m0 r0 D. apply NO in Y. inversion D; subst; auto; exfalso; apply Y; unfold entry_here;
      do 3 eexists; (split; [reflexivity|]); split; auto;
      match goal with K : key_of _ _ |- _ => destruct K as [[K _]|[K _]]; rewrite K; cbn; auto end. }
    destruct Z as [Z|[Z|[OK E]]].
    + rewrite (ST (or_introl Z) _ _ H), (ST (or_introl Z) _ _ H'). reflexivity.
    + rewrite (ST (or_intror Z) _ _ H), (ST (or_intror Z) _ _ H'). reflexivity.
    + assert (O := start_okay i b OK E).
      apply (complete_all i trailing true OK) in H. apply (complete_all i trailing true OK) in H'.
      cbn [complete] in H, H'.
      exact (proj2 (unique_yield _ _ _ _ _ _ _ _ _
        (H (Datatypes.S (length i)) (Datatypes.S (length i)) nil (start b) O eq_refl ltac:(lia) ltac:(lia) ND)
        (H' (Datatypes.S (length i)) (Datatypes.S (length i)) nil (start b) O eq_refl ltac:(lia) ltac:(lia) ND'))).
Qed.
Lemma target_unique : forall b i e r e' r', fit i -> derives trailing b Target i (VE e) r ->
  derives trailing b Target i (VE e') r' -> e = e' /\ r = r'.
Proof.
  intros b i e r e' r' F H H'.
  destruct (fit_first _ _ _ _ _ F H ltac:(discriminate) eq_refl) as [OK E].
  destruct (unambiguous _ _ Target _ (VE e) _ _ _ OK E Logic.I H H') as [X ->]. injection X as ->. auto.
Qed.

(** ** What is there passes *)
Lemma ahead_is : forall t k ks i, t_type t = k -> ahead ks (t :: i) = tt_mem k ks.
Proof. intros t k ks i <-. reflexivity. Qed.
Ltac closed k := match k with
  | t_type _ => fail 1
  | _ => is_var k; fail 1
  | _ => idtac end.
Ltac known := repeat match goal with
  | |- context [tt_mem ?k ?ks] => let v := eval vm_compute in (tt_mem k ks) in
      match v with true => change (tt_mem k ks) with true | false => change (tt_mem k ks) with false end; cbv iota
  end.
Ltac aheads := repeat (cbn [tl]; match goal with
  | K : t_type ?t = ?k |- context [ahead ?ks (?t :: ?i)] => rewrite (ahead_is t k ks i K); known
  | H : ahead ?ks ?i = ?v |- context [ahead ?ks ?i] => rewrite H
  | H : ~ starts ?ks ?i |- context [ahead ?ks ?i] => rewrite (proj2 (ahead_no ks i) H)
  | H : starts ?ks ?i |- context [ahead ?ks ?i] => rewrite (proj2 (ahead_iff ks i) H)
  | D : derives _ _ ?N ?i _ _ |- context [ahead ?ks ?i] =>
      rewrite (proj2 (ahead_no ks i)) by (eapply not_first; [exact D|discriminate|reflexivity])
  end; cbv iota; cbn [andb orb]).
Ltac opened := repeat match goal with
  | H : token_then _ _ _ |- _ => let t := fresh "t" in let K := fresh "K" in destruct H as (t & -> & K)
  | H : name_then _ _ _ |- _ => let K := fresh "K" in destruct H as (-> & K)
  | H : paren_then _ _ |- _ => destruct H as [H|H]
  | H : opens _ _ _ |- _ => inversion H; subst; clear H
  | H : optional _ _ _ |- _ => inversion H; subst; clear H
  end.
Ltac there := cbn [SpecReject.parses]; first
  [ eexists; eassumption | eexists; eexists; eassumption | eexists; split; [eassumption|cbn; lia] ].
Ltac go := repeat (cbn [app negb andb]; match goal with
  | |- exists r, passes _ _ _ r => eexists
  | |- passes _ nil _ _ => apply ps_nil
  | |- passes _ ((if _ then _ else _) ++ _) _ _ => progress aheads
  | |- passes _ (if _ then _ else _) _ _ => progress aheads
  | |- passes _ (Skip :: _) (_ :: _) _ => apply ps_skip
  | |- passes _ (Need _ _ _ :: _) (_ :: _) _ => apply ps_need; [aheads; reflexivity|]
  | |- passes _ (Look _ :: _) _ _ => apply ps_look; cbn beta; aheads
  | |- passes _ (Sub _ :: _) _ _ => eapply ps_sub; [there|]
  | |- passes _ (Last _ :: _) _ _ => eapply ps_last; there
  end).
Ltac inv H := inversion H; subst; clear H; opened.
Lemma not_block : forall b i v r, ~ starts [LeftBrace] i -> derives trailing b Statement i v r ->
  ahead [Terminator; LeftBrace] i = false.
Proof.
  intros b i v r N D. apply ahead_no. intros S. destruct i as [|t i]; [exact S|].
  destruct S as [S|[S|[]]]; [|apply N; now left].
  assert (Z : ~ starts [Terminator] (t :: i)) by (eapply not_first; [exact D|discriminate|reflexivity]).
  apply Z. now left.
Qed.
Lemma follows : forall b p i r, sensible p -> parses b p i r ->
  exists r', passes (inside b p) (steps_of (inside b p) p) i r'.
Proof.
  intros b p i r S H.
  destruct p as [N| |n| |n|n|seen|]; cbn [SpecReject.inside SpecReject.parses] in *;
    [destruct N; cbn [sensible] in S; try contradiction; destruct H as (v & H)|..];
    cbn [SpecReject.steps_of]; unfold need, maybe, unless, wrong, block, opening.
  - (* Expression *) inv H.
    + destruct r; eexists; (eapply ps_target; [eassumption|]); aheads; go.
    + eexists. eapply ps_target; [eassumption|]. aheads. cbn [app].
      replace (can_assign e) with true; [go|].
      destruct e; cbn in *; try discriminate; auto. now destruct (x =? "this")%string.
  - (* Target *) inv H; go.
  - (* Binary *) inv H.
    + rewrite (proj2 (Nat.ltb_lt _ _)) by auto. go.
    + cbn [Nat.ltb Nat.leb top_level]. go.
  - (* Unary *) inv H; go.
    destruct (t_type t) eqn:K; try discriminate; go.
  - (* Call *) inv H; go.
  - (* Primary *)
    inversion H; subst; clear H; unfold parens;
      repeat match goal with
      | I : In (t_type _) [_; _] |- _ => destruct I as [I|[I|[]]]; symmetry in I
      end;
      try (match goal with E : entry_here ?i, D : derives _ _ Entries _ _ _ |- _ =>
        apply entry_ahead_iff in E; eexists; apply ps_look; rewrite E; apply ps_last;
        eexists; split; [exact D|split; [assumption|intros ? ? []]] end);
      opened; eexists; apply ps_look; unfold entry_ahead, argument_start; aheads; cbn [andb]; try go.
    + match goal with D : derives _ _ Entries _ _ _ |- _ =>
        eapply ps_sub; [eexists; split; [exact D|split; [assumption|intros ? ? []]]|] end. go.
  - (* Elements *) inv H; go.
  - (* Statements *) destruct S as [-> | ->]; inv H; go.
  - (* VarDeclaration *) inv H.
    + destruct for_init; go.
    + destruct for_init; opened; [go|]. cbn [negb andb].
      match goal with H : _ \/ _ |- _ => destruct H as [H|(S1 & N & ->)] end; opened.
      * destruct (ahead [Indent; LeftBrace] i3) eqn:A; go.
      * go.
    + destruct for_init; opened; [go|]. cbn [negb andb].
      match goal with H : _ \/ _ |- _ => destruct H as [H|(S1 & N & ->)] end; opened.
      * destruct (ahead [Indent; LeftBrace] i3) eqn:A; go.
      * go.
  - (* Methods *) destruct S as [-> | ->]; inv H; go.
  - (* Branch *) inv H.
    + match goal with H : derives _ _ Block _ _ _ |- _ => inv H end; go.
    + assert (Z : ahead [Terminator; LeftBrace] i = false) by (eapply not_block; eassumption). go.
  - (* ForInit *) inv H; go.
  - (* ExpressionStatement *) inv H; go.
    + rewrite andb_false_r; go.
    + match goal with H : trailing = true |- _ => rewrite H end. go.
  - (* Statement *) inv H; go.
    all: match goal with D : derives _ _ Condition _ _ _, D' : derives _ _ Increment _ _ _ |- _ =>
           inversion D; subst; inversion D'; subst end; aheads; go.
  - (* Declaration *) inv H; go.
    destruct (ahead [Fun] i && ahead [Identifier] (tl i)) eqn:A; [exfalso|go].
    apply andb_true_iff in A. rewrite !ahead_iff in A. destruct A as [A1 A2].
    destruct i as [|t [|u i]]; cbn [starts tl] in *; try contradiction.
    destruct A1 as [A1|[]], A2 as [A2|[]].
    match goal with D : derives _ _ Statement _ _ _ |- _ =>
      exact (fun_unnamed _ _ _ _ _ _ D eq_refl t u i eq_refl (eq_sym A1) (eq_sym A2)) end.
  - (* FunctionBody *) destruct H as (l & v & H). inv H;
      (match goal with H : derives _ _ Block _ _ _ |- _ => inv H end); go.
  - (* OperatorTail *) destruct H as (e & v & H). inv H.
    + destruct r as [|t r]; go. cbn [no_operator] in *.
      match goal with H : operator _ _ = None |- _ => rewrite H end. go.
    + eexists. apply ps_look. match goal with H : operator _ _ = Some _ |- _ => rewrite H end. go.
  - (* CallSuffix *) destruct H as (e & v & H). inv H; go.
    + match goal with N : ~ starts call_continues _ |- _ => rename N into NC end.
      assert (NC' : forall ks, incl ks call_continues -> ahead ks r = false).
      { intros ks L. apply ahead_no. intros S1. apply NC. eapply starts_incl; eauto. }
      rewrite !NC' by inclb. go.
    + match goal with I : In (t_type _) argument_start |- _ => rename I into IA end.
      assert (IA' : ahead argument_start (t :: i0) = true) by (apply ahead_iff; exact IA).
      assert (IA2 : forall ks, forallb (fun k => negb (existsb (tt_eqb k) argument_start)) ks = true ->
        ahead ks (t :: i0) = false).
      { intros ks F. apply ahead_no. intros S1. rewrite forallb_forall in F. specialize (F _ S1).
        apply negb_true_iff in F. apply tt_mem_iff in IA. unfold tt_mem in IA. congruence. }
      rewrite !IA2 by reflexivity. rewrite IA'. go.
  - (* ArgumentsAfter *) destruct H as (es & H & L).
    assert (1 <= length es) by (inversion H; cbn; lia).
    rewrite (proj2 (Nat.leb_gt _ _)) by lia. inv H; cbn [length] in *; go.
  - (* ParametersAfter *) destruct H as (es & H & L).
    assert (1 <= length es) by (inversion H; cbn; lia).
    rewrite (proj2 (Nat.leb_gt _ _)) by lia. inv H; cbn [length] in *; go.
  - (* EntriesAfter *) destruct H as (m & H & ND & NS). inv H.
    + assert (A : entry_ahead r = false).
      { apply not_true_iff_false. now rewrite entry_ahead_iff. }
      eexists. apply ps_look. destruct r; [|rewrite A]; go.
    + match goal with K : key_of _ _ |- _ => rename K into KO end.
      assert (A : entry_ahead (t :: c :: i0) = true) by (apply entry_ahead_iff; exists t, c, i0; 
        split; auto; split; auto; destruct KO as [[-> _]|[-> _]]; cbn; auto).
      assert (KK : key t = k) by (destruct KO as [[K1 ->]|[K1 K2]]; unfold key; rewrite K1; auto; now rewrite K2).
      eexists. apply ps_look. rewrite A, KK.
      replace (existsb (String.eqb k) seen) with false.
      2:{ symmetry. apply not_true_iff_false. rewrite existsb_exists. intros (x & I & E).
          apply String.eqb_eq in E. subst x. apply (NS k); cbn; auto. }
      go. replace (separator_ahead r) with false; [go|]. symmetry. apply not_true_iff_false.
      rewrite separator_ahead_iff. intros (r' & Z).
      match goal with N : forall r', ~ separator r r' |- _ => exact (N r' Z) end.
    + match goal with K : key_of _ _ |- _ => rename K into KO end.
      assert (A : entry_ahead (t :: c :: i0) = true) by (apply entry_ahead_iff; exists t, c, i0; 
        split; auto; split; auto; destruct KO as [[-> _]|[-> _]]; cbn; auto).
      assert (KK : key t = k) by (destruct KO as [[K1 ->]|[K1 K2]]; unfold key; rewrite K1; auto; now rewrite K2).
      match goal with S1 : separator ?x ?y |- _ => 
        assert (SA : separator_ahead x = true) by (apply separator_ahead_iff; eauto);
        assert (SC : exists u, x = u :: y) by (destruct S1 as [(u & -> & _)|((u & -> & _) & _)]; eauto) end.
      destruct SC as (u & ->).
      eexists. apply ps_look. rewrite A, KK.
      replace (existsb (String.eqb k) seen) with false.
      2:{ symmetry. apply not_true_iff_false. rewrite existsb_exists. intros (x & I & E).
          apply String.eqb_eq in E. subst x. apply (NS k); cbn; auto. }
      go. rewrite SA. go. inversion ND; subst. apply ps_last. eexists. split; [eassumption|]. split; auto.
      intros x I [<-|I2]; [contradiction|]. apply (NS x); cbn; auto.
  - (* LoopBody *) destruct H as (v & H). inv H.
    + match goal with H : derives _ _ Block _ _ _ |- _ => inv H end; go.
    + assert (Z : ahead [Terminator; LeftBrace] i = false) by (eapply not_block; eassumption). go.
Qed.

(** ** An error excludes success, and any other error *)
Lemma target_follows : forall b i e r, derives trailing b Target i (VE e) r -> exists r', passes b (steps_of b Target) i r'.
Proof. intros b i e r D. apply (follows b Target i r I). eexists. exact D. Qed.
Lemma excluded : forall b st i f, rejects b st i f -> good st -> fit i -> forall r, ~ passes b st i r.
Proof.
  induction 1 as [b st t i f H IH|b lv ks msg st t i f A H IH|b lv ks msg st t i A|b c st i
    |b p st i r1 f P H IH|b p st i f H IH|b p st i f H IH|b k st i e r1 f D H IH|b k st i f H IH
    |b k st i f H IH]; intros G F r Q; inversion G; subst; inversion Q; subst.
  - eapply IH; eauto. eapply fit_tail; eauto.
  - eapply IH; eauto. eapply fit_tail; eauto.
  - congruence.
  - match goal with P' : parses _ _ _ ?x |- _ => assert (r1 = x) by (eapply parses_unique; eauto) end. subst.
    eapply IH; eauto. eapply fit_suffix; eauto. eapply parses_suffix; eauto.
  - match goal with P' : parses _ _ _ _ |- _ => apply follows in P'; auto; destruct P' as (r' & P') end.
    eapply IH; eauto. now apply steps_good.
  - match goal with P' : parses _ _ _ _ |- _ => apply follows in P'; auto; destruct P' as (r' & P') end.
    eapply IH; eauto. now apply steps_good.
  - match goal with D' : derives _ _ _ _ (VE ?e') ?x |- _ =>
      destruct (target_unique _ _ _ _ _ _ F D D') as [<- <-] end.
    eapply IH; eauto. eapply fit_suffix; eauto. eapply derives_suffix; eauto.
  - match goal with D' : derives _ _ _ _ _ _ |- _ => apply target_follows in D'; destruct D' as (r' & D') end.
    eapply IH; eauto. now apply steps_good.
  - eapply IH; eauto.
Qed.
Lemma not_both : forall b p i f r, sensible p -> fit i ->
  rejects (inside b p) (steps_of (inside b p) p) i f -> ~ parses b p i r.
Proof.
  intros b p i f r S F H P. apply follows in P; auto. destruct P as (r' & P).
  eapply excluded; eauto. now apply steps_good.
Qed.
Lemma rejects_unique : forall b st i f, rejects b st i f -> good st -> fit i ->
  forall f', rejects b st i f' -> f = f'.
Proof.
  induction 1 as [b st t i f H IH|b lv ks msg st t i f A H IH|b lv ks msg st t i A|b c st i
    |b p st i r1 f P H IH|b p st i f H IH|b p st i f H IH|b k st i e r1 f D H IH|b k st i f H IH
    |b k st i f H IH]; intros G F f' Q; inversion G; subst; inversion Q; subst.
  - eapply IH; eauto. eapply fit_tail; eauto.
  - eapply IH; eauto. eapply fit_tail; eauto.
  - congruence.
  - congruence.
  - reflexivity.
  - reflexivity.
  - match goal with P' : parses _ _ _ ?x |- _ => assert (r1 = x) by (eapply parses_unique; eauto) end. subst.
    eapply IH; eauto. eapply fit_suffix; eauto. eapply parses_suffix; eauto.
  - exfalso. eapply (not_both b p); eauto.
  - exfalso. eapply (not_both b p); eauto.
  - eapply IH; eauto. now apply steps_good.
  - eapply IH; eauto. now apply steps_good.
  - match goal with D' : derives _ _ _ _ (VE ?e') ?x |- _ =>
      destruct (target_unique _ _ _ _ _ _ F D D') as [<- <-] end.
    eapply IH; eauto. eapply fit_suffix; eauto. eapply derives_suffix; eauto.
  - exfalso. eapply (not_both b Target); eauto; [exact I|eexists; eassumption].
  - exfalso. eapply (not_both b Target); eauto; [exact I|eexists; eassumption].
  - eapply IH; eauto. now apply steps_good.
  - eapply IH; eauto.
Qed.
Lemma rejects_suffix : forall b st i f, rejects b st i f -> suffix i (f_left f).
Proof.
  induction 1; cbn [f_left]; try apply suffix_refl; try (apply suffix_cons; assumption); auto.
  - eapply suffix_trans; [eapply parses_suffix; eassumption|assumption].
  - eapply suffix_trans; [eapply derives_suffix; eassumption|assumption].
Qed.
Lemma recovers_suffix : forall i r, recovers i r -> suffix i r.
Proof. induction 1; [apply suffix_refl|exists [t]; reflexivity|apply suffix_cons; assumption]. Qed.
Lemma recovers_unique : forall i r, recovers i r -> forall r', recovers i r' -> r = r'.
Proof.
  assert (EX : forall t, t_type t = Eof -> ~ In (t_type t) resumes).
  { intros t K I. rewrite K in I. cbn in I. intuition discriminate. }
  induction 1 as [i S|t i I|t i r N H IH]; intros r' H'; inversion H'; subst; auto.
  - cbn in S. destruct S as [S|[]]. exfalso. eapply EX; eauto.
  - cbn in S. destruct S as [S|[]]. exfalso. match goal with N : ~ In _ _ |- _ => apply N end. now left.
  - match goal with S : starts _ _ |- _ => destruct S as [S|[]] end. exfalso. eapply EX; eauto.
  - exfalso. match goal with N : ~ In _ _ |- _ => apply N end. now right.
  - match goal with S : starts _ _ |- _ => destruct S as [S|[]] end. exfalso. apply N. now left.
  - exfalso. apply N. now right.
Qed.
Lemma reports_unique : forall b i cs, reports trailing ending b i cs -> fit i ->
  forall cs', reports trailing ending b i cs' -> cs = cs'.
Proof.
  assert (DE : forall b i st r, derives trailing b Declaration i (VS st) r -> starts [Eof] i -> False).
  { intros b i st r D. eapply not_first; [exact D|discriminate|reflexivity]. }
  induction 1 as [b i S|b i st r cs D R IH|b i f r cs N J V R IH]; intros F cs' H'; inversion H'; subst.
  - reflexivity.
  - exfalso. eapply DE; eauto.
  - contradiction.
  - exfalso. eapply DE; eauto.
  - match goal with D' : derives _ _ _ _ _ ?x |- _ =>
      assert (r = x) by (eapply (parses_unique b Declaration); eauto; [exact I|eexists; eassumption|eexists; eassumption]) end.
    subst. eapply IH; eauto. eapply fit_suffix; eauto. eapply derives_suffix; eauto.
  - exfalso. eapply (not_both b Declaration); eauto; [exact I|eexists; eassumption].
  - contradiction.
  - exfalso. eapply (not_both b Declaration); eauto; [exact I|eexists; eassumption].
  - match goal with J' : rejects _ _ _ ?g |- _ =>
      assert (f = g) by (eapply rejects_unique; eauto; apply steps_good; exact I) end. subst.
    match goal with V' : recovers _ ?x |- _ => assert (r = x) by (eapply recovers_unique; eauto) end. subst.
    f_equal. eapply IH; eauto. eapply fit_suffix; eauto.
    eapply suffix_trans; [eapply rejects_suffix; eauto|eapply recovers_suffix; eauto].
Qed.
End Unique.
