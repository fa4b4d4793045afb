(** Token lists one after the other. *)
From Verif Require Import Base F64 Token Ast SpecGrammar SpecParse SpecConcat ParseFirst ParseRepl.
From Coq Require Import Lia.

(** The tokens [T] in the place of the last one. *)
Fixpoint ext (T : list token) (l : list token) : list token :=
  match l with
  | nil => nil
  | [t] => T
  | t :: q => t :: ext T q
  end.
Lemma ext_last : forall T l t, ext T (l ++ [t]) = l ++ T.
Proof. induction l as [|a l IH]; intros t; [reflexivity|]. cbn. rewrite IH. now destruct l. Qed.

Section Extend.
Variable T : list token.
Hypothesis NT : ~ starts [Colon; RightBrace] T.
Hypothesis NE : ~ entry_here T.
Notation ext := (ext T).
Lemma ext_cons : forall t q, 1 <= length q -> ext (t :: q) = t :: ext q.
Proof. intros t [|a q] L; [cbn in L; lia|reflexivity]. Qed.
Lemma starts_ext : forall ks r, 2 <= length r -> starts ks (ext r) -> starts ks r.
Proof. intros ks [|t [|u r]] L; cbn in *; auto; lia. Qed.
Lemma starts_ext' : forall ks r, 2 <= length r -> starts ks r -> starts ks (ext r).
Proof. intros ks [|t [|u r]] L; cbn in *; auto; lia. Qed.
Lemma then_ext : forall k i r, token_then k i r -> 1 <= length r -> token_then k (ext i) (ext r).
Proof. intros k i r (t & -> & K) L. exists t. split; auto. now apply ext_cons. Qed.
Lemma name_ext : forall t i r, name_then t i r -> 1 <= length r -> name_then t (ext i) (ext r).
Proof. intros t i r (-> & K) L. split; auto. now apply ext_cons. Qed.
Lemma paren_ext : forall i r, paren_then i r -> 1 <= length r -> paren_then (ext i) (ext r).
Proof. intros i r [H|H] L; [left|right]; now apply then_ext. Qed.
Lemma opens_ext : forall k i r, opens k i r -> 1 <= length r -> opens k (ext i) (ext r).
Proof.
  intros k i r [t u j K K'|t j K] L.
  - rewrite ext_cons by (cbn; lia). rewrite ext_cons by auto. now constructor.
  - rewrite ext_cons by auto. now constructor.
Qed.
Lemma optional_ext : forall k i r, optional k i r -> 2 <= length r -> optional k (ext i) (ext r).
Proof.
  intros k i r [t j K|j K] L.
  - rewrite ext_cons by lia. now apply opt_some.
  - apply opt_none. intros S. apply K. now apply starts_ext.
Qed.
Lemma no_operator_ext : forall n r, 2 <= length r -> no_operator n r -> no_operator n (ext r).
Proof. intros n [|t [|u r]] L; cbn in *; auto; lia. Qed.
Lemma entry_ext : forall r, ends_eof r -> 2 <= length r -> (entry_here (ext r) <-> entry_here r).
Proof.
  intros r (j & e & -> & E) L. rewrite ext_last. destruct j as [|a [|c j]].
  - cbn in L. lia.
  - cbn. split; intros (t & u & q & Q & _ & C); [|injection Q as <- <- <-; congruence].
    injection Q as <- Q. exfalso. apply NT. rewrite Q. cbn. auto.
  - cbn. split; intros (t & u & q & Q & I & C); injection Q as <- <- <-; do 3 eexists; eauto.
Qed.
Lemma separator_ext : forall r q, ends_eof r -> separator r q -> 2 <= length q -> separator (ext r) (ext q).
Proof.
  intros r q E [H|[H D]] L.
  - left. apply then_ext; auto. lia.
  - right. split; [apply then_ext; auto; lia|].
    assert (E' : ends_eof q) by (eapply ends_suffix; [eapply suffix_then; eauto|auto|lia]).
    destruct D as [D|D]; [left; now apply entry_ext|right; now apply starts_ext'].
Qed.
Lemma no_separator_ext : forall r, ends_eof r -> 2 <= length r -> (forall q, ~ separator r q) ->
  forall q, ~ separator (ext r) q.
Proof.
  intros r E L N q H. destruct r as [|t r]; [cbn in L; lia|]. cbn in L. rewrite ext_cons in H by lia.
  apply (N r). destruct H as [(u & Q & K)|[(u & Q & K) D]]; injection Q as <- <-; [left; eexists; eauto|].
  right. split; [eexists; eauto|].
  destruct r as [|a [|c r]]; [cbn in L; lia| |].
  - exfalso. cbn in D. destruct D as [D|D]; [auto|]. apply NT. destruct T; cbn in *; tauto.
  - apply ends_tail in E; [|cbn; lia].
    destruct D as [D|D]; [left; apply entry_ext; auto; cbn; lia|right; apply starts_ext in D; auto; cbn; lia].
Qed.

Ltac lengths := repeat match goal with
  | H : token_then _ _ _ |- _ => let L := fresh "L" in assert (L := then_length _ _ _ H); revert H
  | H : name_then _ _ _ |- _ => let L := fresh "L" in assert (L := name_length _ _ _ H); revert H
  | H : paren_then _ _ |- _ => let L := fresh "L" in assert (L := paren_length _ _ H); revert H
  | H : opens _ _ _ |- _ => let L := fresh "L" in assert (L := opens_length _ _ _ H); revert H
  | H : optional _ _ _ |- _ => let L := fresh "L" in assert (L := optional_length _ _ _ H); revert H
  | H : separator _ _ |- _ => let L := fresh "L" in assert (L := separator_length _ _ H); revert H
  | H : derives _ _ _ _ _ _ |- _ => let L := fresh "L" in assert (L := derives_length _ _ _ _ _ _ H);
      let S := fresh "S" in assert (S := derives_suffix _ _ _ _ _ _ H); revert H
  end; intros; cbn [List.length] in *.
Ltac ends E := match goal with |- ends_eof ?r =>
  apply (fun S => ends_suffix _ r S E); [suf|cbn [List.length]; lia] end.
Ltac ihs E := repeat match goal with
  | IH : ends_eof _ -> 2 <= length _ -> _ |- _ => specialize (IH ltac:(ends E) ltac:(lia))
  end.
Ltac ext_all := rewrite ?ext_cons in * by (cbn [List.length]; lia); repeat match goal with
  | H : token_then _ _ _ |- _ => apply then_ext in H; [|lia]; revert H
  | H : name_then _ _ _ |- _ => apply name_ext in H; [|lia]; revert H
  | H : paren_then _ _ |- _ => apply paren_ext in H; [|lia]; revert H
  | H : opens _ _ _ |- _ => apply opens_ext in H; [|lia]; revert H
  | H : optional _ _ _ |- _ => apply optional_ext in H; [|lia]; revert H
  | H : ~ starts _ ?r |- _ =>
      lazymatch r with ext _ => fail | _ =>
        assert (~ starts _ (ext r)) by (intros ?S; apply H; eapply starts_ext; [lia|eassumption]); clear H end
  | H : starts _ ?r |- _ =>
      lazymatch r with ext _ => fail | _ => apply starts_ext' in H; [|lia]; revert H end
  end; intros.

(** What is followed by something does not see what replaces the end. *)
Lemma extension : forall b N i v r, derives false b N i v r -> ends_eof i -> 2 <= length r ->
  derives false b N (ext i) v (ext r).
Proof.
  induction 1; intros E L; lengths; try discriminate.
  all: try match goal with H : if ?f then token_then Semicolon ?a ?c else _ |- _ =>
    assert (length c <= length a) by
      (destruct f; [apply then_length in H; lia|];
       destruct H as [H|(_ & _ & ->)]; [apply then_length in H; lia|lia]) end.
  all: ihs E.
  all: ext_all.
  all: try (econstructor; eassumption).
  - eapply d_assignment; [apply IHderives1; auto; lia|eassumption|eassumption|assumption].
  - apply d_tail_end. now apply no_operator_ext.
  - eapply d_bare_map; [|eassumption|assumption]. apply entry_ext; auto. lia.
  - destruct i as [|u i].
    + exfalso. destruct E as (j & e & Q & K). destruct j as [|a [|a' [|]]]; try discriminate.
      injection Q as _ ->. congruence.
    + rewrite ext_cons by (cbn; lia). now constructor.
  - apply d_entries_none. rewrite entry_ext; auto.
  - eapply d_entries_last; try eassumption. apply no_separator_ext; auto. ends E.
  - eapply d_entries_more; try eassumption. apply separator_ext; auto; [ends E|lia].
  - eapply d_var_init; try eassumption.
    destruct for_init; [apply then_ext; auto; lia|].
    destruct H3 as [H3|(S1 & S2 & ->)]; [left; apply then_ext; auto; lia|].
    right. split; [apply starts_ext'; auto; lia|]. split; auto. intros Z. apply S2. now apply starts_ext.
Qed.

(** Statements may also end right before the end. *)
Hypothesis NS : ~ starts [Else; Equal; Terminator] T.
Definition closing_sym (N : sym) : Prop :=
  match N with
  | Function _ | Block | Statements _ | Methods _ | Branch | Statement | ExpressionStatement => True
  | _ => False
  end.
Lemma not_starts_ext : forall k r, 1 <= length r -> In k [Else; Equal; Terminator] -> ~ starts [k] r -> ~ starts [k] (ext r).
Proof.
  intros k [|t [|u r]] L I H; cbn in *; try lia; auto. intros S. apply NS.
  destruct T as [|x q]; cbn in *; [auto|]. intuition (subst; auto).
Qed.
Ltac ext_some := rewrite ?ext_cons in * by (cbn [List.length]; lia); repeat match goal with
  | H : token_then _ _ _ |- _ => apply then_ext in H; [|lia]; revert H
  | H : name_then _ _ _ |- _ => apply name_ext in H; [|lia]; revert H
  | H : paren_then _ _ |- _ => apply paren_ext in H; [|lia]; revert H
  | H : opens _ _ _ |- _ => apply opens_ext in H; [|lia]; revert H
  | H : ~ starts _ ?r |- _ =>
      lazymatch r with ext _ => fail | _ =>
      first [ apply not_starts_ext in H; [|lia|cbn; tauto]
            | assert (~ starts _ (ext r)) by (intros ?S; apply H; eapply starts_ext; [lia|eassumption]); clear H ]; revert H end
  end; intros.
Lemma statements_moves : forall trailing b N i v r, derives trailing b N i v r ->
  match N with Statements _ | Methods _ => True | _ => False end -> length r < length i.
Proof.
  induction 1; intros F; try contradiction.
  - apply then_length in H. lia.
  - specialize (IHderives2 I). apply derives_length in H. lia.
  - apply then_length in H. lia.
  - specialize (IHderives2 I). apply derives_length in H0. apply name_length in H. lia.
  - specialize (IHderives2 I). apply then_length in H. apply name_length in H0. apply derives_length in H1. lia.
Qed.
Lemma extension_end : forall b N i v r, derives false b N i v r -> closing_sym N -> ends_eof i -> 1 <= length r ->
  derives false b N (ext i) v (ext r).
Proof.
  intros b N i v r H F E L.
  destruct (le_lt_dec 2 (length r)) as [L2|L2]; [now apply extension|].
  assert (L1 : length r = 1) by lia. clear L L2. revert F E L1.
  induction H; intros F E L; try contradiction; try discriminate; lengths.
  all: try match goal with H : derives _ _ (Statements _) _ _ _ |- _ =>
    let M := fresh "M" in assert (M := statements_moves _ _ _ _ _ _ H I) end.
  all: try match goal with H : derives _ _ (Methods _) _ _ _ |- _ =>
    let M := fresh "M" in assert (M := statements_moves _ _ _ _ _ _ H I) end.
  all: repeat match goal with
    | IH : closing_sym _ -> ends_eof _ -> length ?r = 1 -> _ |- _ =>
      first [specialize (IH I ltac:(ends E) ltac:(lia))|clear IH] end.
  all: repeat match goal with
    | H : derives false ?b ?N ?i ?v ?r |- _ =>
      lazymatch goal with _ : derives false b N (ext i) v (ext r) |- _ => fail | _ =>
        assert (derives false b N (ext i) v (ext r)) by (apply extension; [exact H|ends E|cbn [List.length]; lia]) end
    end.
  all: ext_some.
  all: try (econstructor; eassumption).
  - assert (M := statement_moves _ _ _ _ _ _ H0 I). apply d_expression_statement; auto.
    intros Z. apply H. apply starts_ext in Z; auto. lia.
  - assert (M := statement_moves _ _ _ _ _ _ H0 I). apply d_branch_statement; auto.
    intros Z. apply H. apply starts_ext in Z; auto. lia.
Qed.

(** Expressions do not end with the end of a line. *)
Definition ends_ok (i r : list token) : Prop :=
  forall p t, i = p ++ t :: r -> t_type t <> Terminator \/ starts [RightBrace] r.
Lemma app_last : forall A (p q : list A) t u r, p ++ t :: r = q ++ u :: r -> t = u.
Proof.
  intros A p q t u r H. assert (X : (p ++ [t]) ++ r = (q ++ [u]) ++ r) by (rewrite <- !app_assoc; exact H).
  apply app_inv_tail in X. apply app_inj_tail in X. tauto.
Qed.
Lemma ends_from : forall i j r, suffix i j -> suffix j r -> ends_ok j r -> (j = r -> ends_ok i j) -> ends_ok i r.
Proof.
  intros i j r [p ->] [q ->] H K. destruct q as [|x q] using rev_ind.
  - apply (K eq_refl).
  - clear IHq. intros p' t Q. apply (H q). rewrite <- app_assoc. cbn. f_equal. f_equal.
    rewrite <- !app_assoc in Q. cbn in Q. rewrite app_assoc in Q. now apply app_last in Q.
Qed.
Lemma ends_self : forall i, ends_ok i i.
Proof.
  intros i p t Q. exfalso. assert (L := f_equal (@List.length token) Q). rewrite app_length in L. cbn in L. lia.
Qed.
Lemma ends_cons : forall t i, t_type t <> Terminator -> ends_ok (t :: i) i.
Proof. intros t i H p u Q. left. assert (t = u) by exact (app_last _ nil p t u i Q). now subst. Qed.
Lemma ends_then : forall k i r, token_then k i r -> k <> Terminator -> ends_ok i r.
Proof. intros k i r (t & -> & K) N. apply ends_cons. congruence. Qed.
Lemma ends_name : forall t i r, name_then t i r -> ends_ok i r.
Proof. intros t i r (-> & K). apply ends_cons. congruence. Qed.
Definition expr_sym (N : sym) : Prop :=
  match N with
  | Expression | Target | Binary _ | BinaryTail _ _ | Unary | Call | CallTail _ | Primary | Arguments | Elements
  | Entries | Function _ | Block => True
  | Statements k => k <> Terminator
  | _ => False
  end.

Ltac kinds := first [congruence|intros ?K; rewrite ?K in *; cbn in *; intuition discriminate
  |intros ?K; rewrite ?K in *; cbn in *; repeat match goal with n : nat |- _ => destruct n; cbn in *; try discriminate end].
Ltac ends_go := match goal with
  | H : ends_ok ?i ?r |- ends_ok ?i ?r => exact H
  | |- ends_ok (?t :: ?i) ?i => apply ends_cons; kinds
  | H : token_then ?k ?j ?r |- ends_ok ?i ?r =>
      apply (ends_from i j r); [suf|suf|apply (ends_then _ _ _ H); discriminate|
        intros ?Q; exfalso; apply then_length in H; subst; lia]
  | H : name_then ?k ?j ?r |- ends_ok ?i ?r =>
      apply (ends_from i j r); [suf|suf|apply (ends_name _ _ _ H)|
        intros ?Q; exfalso; apply name_length in H; subst; lia]
  | H : derives _ _ _ _ _ (?t :: ?r) |- ends_ok ?i ?r =>
      apply (ends_from i (t :: r) r); [suf|suf|apply ends_cons; kinds|
        intros ?Q; exfalso; apply (f_equal (@List.length token)) in Q; cbn in Q; lia]
  | |- ends_ok (?t :: ?u :: ?r) ?r =>
      apply (ends_from (t :: u :: r) (u :: r) r); [suf|suf|apply ends_cons; kinds|
        intros ?Q; exfalso; apply (f_equal (@List.length token)) in Q; cbn in Q; lia]
  | H : ends_ok ?j ?r |- ends_ok ?i ?r => apply (ends_from i j r); [suf|suf|exact H|intros _; clear H; ends_go]
  end.
Lemma expression_ends : forall trailing b N i v r, derives trailing b N i v r -> expr_sym N -> ends_ok i r.
Proof.
  induction 1; intros F; try contradiction; cbn [expr_sym] in *.
  all: repeat match goal with IH : ?X -> ends_ok _ _ |- _ => 
     first [specialize (IH I)|match X with False => clear IH end] end.
  all: lengths.
  all: try apply ends_self.
  all: try assumption.
  all: try (ends_go; fail).
  - apply (ends_from (t :: c :: i) r2 r); [suf|suf|assumption|]. intros ->.
    apply (ends_from (t :: c :: i) r1 r); [suf|suf| |intros ->; lia].
    destruct H2 as [H2|[H2 D]]; [apply (ends_then _ _ _ H2); discriminate|].
    destruct D as [D|D].
    + exfalso. apply (entries_move _ _ _ _ _ H3) in D. lia.
    + intros p u Q. now right.
  - assert (M := statements_moves _ _ _ _ _ _ H0 I).
    apply (ends_from i i1 r); [suf|suf| |intros ->; lia]. apply IHderives. destruct H; discriminate.
  - apply (ends_then _ _ _ H F).
  - assert (M := statements_moves _ _ _ _ _ _ H0 I).
    apply (ends_from i r1 r); [suf|suf| |intros ->; lia]. apply IHderives2. exact F.
Qed.

(** ** Declarations and programs *)
Definition is_var (v : val) : Prop := match v with VS (SVar _ _ _ _) => True | _ => False end.
Lemma ends_line_suffix : forall p r, ends_line (p ++ r) -> 2 <= length r -> ends_line r.
Proof.
  induction p as [|a p IH]; intros r H L; auto. apply IH; auto.
  destruct H as (j & x & e & Q & K). destruct j as [|c j]; injection Q as -> Q.
  - exfalso. apply (f_equal (@List.length token)) in Q. rewrite app_length in Q. cbn in Q. lia.
  - exists j, x, e. auto.
Qed.
Lemma no_line_end : forall i e, ends_line i -> ends_ok i [e] -> t_type e = Eof -> suffix i [e] -> False.
Proof.
  intros i e (j & x & e' & -> & K) O E [p Q].
  assert (Q' : (j ++ [x]) ++ [e'] = p ++ [e]) by (rewrite <- app_assoc; exact Q).
  apply app_inj_tail in Q'. destruct Q' as [_ ->].
  destruct (O j x eq_refl) as [H|[H|[]]]; [auto|]. congruence.
Qed.
Lemma statement_no_var : forall trailing b N i v r, derives trailing b N i v r ->
  match N with ExpressionStatement | Statement => True | _ => False end -> ~ is_var v.
Proof.
  induction 1; intros F; try contradiction; cbn; auto.
  destruct init; cbn; auto. destruct inc; cbn; auto.
Qed.
Lemma single : forall i, ends_eof i -> length i = 1 -> exists e, i = [e] /\ t_type e = Eof.
Proof.
  intros i (j & e & -> & K) L. rewrite app_length in L. cbn in L. destruct j; [|cbn in L; lia]. exists e. auto.
Qed.
Lemma declaration_end : forall b i v r, derives false b Declaration i v r -> ends_eof i -> 1 <= length r ->
  ~ is_var v \/ ends_line i -> derives false b Declaration (ext i) v (ext r).
Proof.
  intros b i v r H E L C.
  destruct (le_lt_dec 2 (length r)) as [L2|L2]; [now apply extension|].
  assert (L1 : length r = 1) by lia. clear L2.
  inversion H; subst; lengths.
  - assert (M := statements_moves _ _ _ _ _ _ H3 I).
    eapply d_class; [apply then_ext; [eassumption|lia]|apply name_ext; [eassumption|lia]|apply opens_ext; [eassumption|lia]|].
    apply extension_end; [assumption|exact I|ends E|lia].
  - assert (M := statements_moves _ _ _ _ _ _ H5 I).
    eapply d_subclass; [apply then_ext; [eassumption|lia]|apply name_ext; [eassumption|lia]|apply then_ext; [eassumption|lia]
      |apply name_ext; [eassumption|lia]|apply opens_ext; [eassumption|lia]|].
    apply extension_end; [assumption|exact I|ends E|lia].
  - eapply d_fun; [apply then_ext; [eassumption|lia]|apply name_ext; [eassumption|lia]|].
    apply extension_end; [assumption|exact I|ends E|lia].
  - eapply d_var; [apply then_ext; [eassumption|lia]|].
    inversion H1; subst; lengths.
    + apply d_var_none with (i1 := ext i2); [apply name_ext; [eassumption|lia]|apply then_ext; [eassumption|lia]].
    + match goal with H : token_then _ _ _ \/ _ |- _ => destruct H as [HT|(Z1 & Z2 & HQ)] end.
      * assert (LT := then_length _ _ _ HT).
        eapply d_var_init; [apply name_ext; [eassumption|lia]|apply then_ext; [eassumption|lia]|
          apply optional_ext; [eassumption|lia]|apply extension; [eassumption|ends E|lia]|].
        left. apply then_ext; [eassumption|lia].
      * exfalso. subst r1. destruct C as [C|C]; [now apply C|].
        destruct (single r) as (eof & -> & K); [ends E|auto|].
        assert (MV := proj1 (derives_moves _ _ _ _ _ _ H8) I). cbn [List.length] in *.
        assert (M : 1 < length i4).
        { destruct MV as [MV|[<- [MV|[]]]]; auto. congruence. }
        assert (SI : suffix i i4) by suf. destruct SI as [p ->].
        apply (no_line_end i4 eof); auto.
        -- eapply ends_line_suffix; eauto.
        -- eapply expression_ends; [eassumption|exact I].
  - apply d_statement. apply extension_end; [assumption|exact I|assumption|lia].
Qed.
End Extend.

(** One program after the other. *)
Lemma program_sym : forall trailing b i v r, derives trailing b Program i v r -> exists l, v = VSs l.
Proof. intros trailing b i v r H. inversion H; subst; eauto. Qed.
(** The declarations of [l], one after the other. *)
Inductive declares (trailing b : bool) : list token -> list stmt -> list token -> Prop :=
| dc_none : forall i, declares trailing b i nil i
| dc_more : forall i st r1 l r, derives trailing b Declaration i (VS st) r1 ->
    declares trailing b r1 l r -> declares trailing b i (st :: l) r.
Lemma program_declares : forall trailing b i l l' r r', declares trailing b i l r ->
  derives trailing b Program r (VSs l') r' -> derives trailing b Program i (VSs (l ++ l')) r'.
Proof. induction 1; intros H'; cbn; auto. eapply d_program_more; eauto. Qed.
Lemma program_after : forall trailing b A l r, derives false b Program A (VSs l) r ->
  ends_eof A -> (exists e, r = [e] /\ t_type e = Eof) ->
  forall T, fresh_start T -> ~ ends_in_var l \/ ends_line A ->
  declares trailing b (ext T A) l T.
Proof.
  intros trailing b A l r H. remember Program as N. remember (VSs l) as v. revert HeqN l Heqv.
  induction H; intros HN l0 HV E R T [NH NE] C; try discriminate.
  - injection HV as <-. destruct R as (e & -> & K). cbn. constructor.
  - injection HV as <-. clear IHderives1.
    assert (NT : ~ starts [Colon; RightBrace] T) by (intros Z; apply NH; eapply starts_incl; [exact Z|inclb]).
    assert (NS : ~ starts [Else; Equal; Terminator] T) by (intros Z; apply NH; eapply starts_incl; [exact Z|inclb]).
    assert (L : 1 <= length r1).
    { destruct R as (e & -> & K). apply derives_length in H0. cbn in H0. lia. }
    assert (S := derives_suffix _ _ _ _ _ _ H).
    assert (E1 : ends_eof r1) by (eapply ends_suffix; eauto).
    assert (M := statement_moves _ _ _ _ _ _ H I).
    destruct (le_lt_dec 2 (length r1)) as [L2|L2].
    + eapply dc_more with (r1 := ext T r1).
      * assert (X : derives false b Declaration (ext T i) (VS st) (ext T r1)) by (apply extension; auto).
        destruct trailing; [apply more_lenient|]; exact X.
      * apply IHderives2; auto; [split; auto|]. destruct C as [C|C].
        -- left. intros (l0 & x & s & e & p & ->). apply C. exists (st :: l0), x, s, e, p. reflexivity.
        -- right. destruct S as [q ->]. eapply ends_line_suffix; eauto.
    + destruct (single r1 E1) as (eof & -> & K); [lia|].
      assert (Q : l = nil).
      { inversion H0; subst; auto. exfalso.
        match goal with D : derives _ _ Declaration _ _ _, P : derives _ _ Program ?q _ r |- _ =>
          assert (M1 := statement_moves _ _ _ _ _ _ D I); apply derives_length in P end.
        destruct R as (e & -> & _). cbn in *. lia. }
      subst l. eapply dc_more with (r1 := ext T [eof]).
      * assert (X : derives false b Declaration (ext T i) (VS st) (ext T [eof])).
        { apply declaration_end; auto. destruct C as [C|C]; [left|auto]. intros V. apply C.
          destruct st; try contradiction. exists nil. cbn. eauto. }
        destruct trailing; [apply more_lenient|]; exact X.
      * cbn. constructor.
Qed.
