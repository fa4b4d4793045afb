(** The REPL's parser against the parser of files. *)
From Verif Require Import Base F64 Token Ast SpecGrammar ParseFirst.
From Coq Require Import Lia.

(** What files allow the REPL allows. *)
Lemma more_lenient : forall b N i v r, derives false b N i v r -> derives true b N i v r.
Proof.
  intros b N i v r H. induction H; try discriminate; try (econstructor; eassumption).
Qed.

(** The tokens [x] and [y] in the place of the last one. *)
Fixpoint ins (x y : token) (l : list token) : list token :=
  match l with
  | nil => nil
  | [t] => [x; y]
  | t :: q => t :: ins x y q
  end.
Lemma ins_last : forall x y l t, ins x y (l ++ [t]) = l ++ [x; y].
Proof. induction l as [|a l IH]; intros t; [reflexivity|]. cbn. rewrite IH. now destruct l. Qed.

Section Insert.
Variable x y : token.
Hypothesis X : t_type x = Terminator.
Hypothesis Y : t_type y = Eof.
Notation ins := (ins x y).
Lemma ins_cons : forall t q, 1 <= length q -> ins (t :: q) = t :: ins q.
Proof. intros t [|a q] L; [cbn in L; lia|reflexivity]. Qed.
Lemma starts_ins : forall ks r, 2 <= length r -> starts ks (ins r) -> starts ks r.
Proof. intros ks [|t [|u r]] L; cbn in *; auto; lia. Qed.
Lemma starts_ins' : forall ks r, 2 <= length r -> starts ks r -> starts ks (ins r).
Proof. intros ks [|t [|u r]] L; cbn in *; auto; lia. Qed.
Lemma then_ins : forall k i r, token_then k i r -> 1 <= length r -> token_then k (ins i) (ins r).
Proof. intros k i r (t & -> & K) L. exists t. split; auto. now apply ins_cons. Qed.
Lemma name_ins : forall t i r, name_then t i r -> 1 <= length r -> name_then t (ins i) (ins r).
Proof. intros t i r (-> & K) L. split; auto. now apply ins_cons. Qed.
Lemma paren_ins : forall i r, paren_then i r -> 1 <= length r -> paren_then (ins i) (ins r).
Proof. intros i r [H|H] L; [left|right]; now apply then_ins. Qed.
Lemma opens_ins : forall k i r, opens k i r -> 1 <= length r -> opens k (ins i) (ins r).
Proof.
  intros k i r [t u j K K'|t j K] L.
  - rewrite ins_cons by (cbn; lia). rewrite ins_cons by auto. now constructor.
  - rewrite ins_cons by auto. now constructor.
Qed.
Lemma optional_ins : forall k i r, optional k i r -> 2 <= length r -> optional k (ins i) (ins r).
Proof.
  intros k i r [t j K|j K] L.
  - rewrite ins_cons by lia. now apply opt_some.
  - apply opt_none. intros S. apply K. now apply starts_ins.
Qed.
Lemma no_operator_ins : forall n r, 2 <= length r -> no_operator n r -> no_operator n (ins r).
Proof. intros n [|t [|u r]] L; cbn in *; auto; lia. Qed.
Definition ends_eof (l : list token) : Prop := exists j e, l = j ++ [e] /\ t_type e = Eof.
Lemma entry_ins : forall r, ends_eof r -> 2 <= length r -> (entry_here (ins r) <-> entry_here r).
Proof.
  intros r (j & e & -> & E) L. rewrite ins_last. destruct j as [|a [|c j]].
  - cbn in L. lia.
  - cbn. split; intros (t & u & q & Q & _ & C); injection Q as <- <- <-; congruence.
  - cbn. split; intros (t & u & q & Q & I & C); injection Q as <- <- <-; do 3 eexists; eauto.
Qed.
Lemma entry_short : forall e, ~ entry_here [x; e].
Proof. intros e (t & u & q & Q & I & _). injection Q as <- <- <-. rewrite X in I. cbn in I. intuition discriminate. Qed.
Lemma ends_tail : forall t q, ends_eof (t :: q) -> 1 <= length q -> ends_eof q.
Proof.
  intros t q (j & e & Q & E) L. destruct j as [|a j]; injection Q as -> ->; [cbn in L; lia|].
  exists j, e. auto.
Qed.
Lemma ends_suffix : forall i r, suffix i r -> ends_eof i -> 1 <= length r -> ends_eof r.
Proof.
  intros i r [p ->]. induction p as [|a p IH]; auto. cbn. intros E L. apply IH; auto.
  eapply ends_tail; eauto. rewrite app_length. lia.
Qed.
Lemma separator_ins : forall r q, ends_eof r -> separator r q -> 2 <= length q -> separator (ins r) (ins q).
Proof.
  intros r q E [T|[T D]] L.
  - left. apply then_ins; auto. lia.
  - right. split; [apply then_ins; auto; lia|].
    assert (E' : ends_eof q) by (eapply ends_suffix; [eapply suffix_then; eauto|auto|lia]).
    destruct D as [D|D]; [left; now apply entry_ins|right; now apply starts_ins'].
Qed.
Lemma no_separator_ins : forall r, ends_eof r -> 2 <= length r -> (forall q, ~ separator r q) ->
  forall q, ~ separator (ins r) q.
Proof.
  intros r E L N q H. destruct r as [|t r]; [cbn in L; lia|]. cbn in L. rewrite ins_cons in H by lia.
  apply (N r). destruct H as [(u & Q & K)|[(u & Q & K) D]]; injection Q as <- <-; [left; eexists; eauto|].
  right. split; [eexists; eauto|].
  destruct r as [|a [|c r]]; [cbn in L; lia| |].
  - exfalso. cbn in D. destruct D as [D|D]; [now apply entry_short in D|]. rewrite X in D. intuition discriminate.
  - apply ends_tail in E; [|cbn; lia].
    destruct D as [D|D]; [left; apply entry_ins; auto; cbn; lia|right; apply starts_ins in D; auto; cbn; lia].
Qed.

Ltac lengths := repeat match goal with
  | H : token_then _ _ _ |- _ => let L := fresh "L" in assert (L := then_length _ _ _ H); revert H
  | H : name_then _ _ _ |- _ => let L := fresh "L" in assert (L := name_length _ _ _ H); revert H
  | H : paren_then _ _ |- _ => let L := fresh "L" in assert (L := paren_length _ _ H); revert H
  | H : opens _ _ _ |- _ => let L := fresh "L" in assert (L := opens_length _ _ _ H); revert H
  | H : optional _ _ _ |- _ => let L := fresh "L" in assert (L := optional_length _ _ _ H); revert H
  | H : separator _ _ |- _ => let L := fresh "L" in assert (L := separator_length _ _ H); revert H
  | H : derives _ _ _ _ _ _ |- _ => let L := fresh "L" in assert (L := derives_length _ _ _ _ _ _ H);
      let S := fresh "S" in assert (S := derives_suffix _ _ _ _ _ _ H); revert H
  end; intros; cbn [List.length] in *.
Ltac ends E := match goal with |- ends_eof ?r =>
  apply (fun S => ends_suffix _ r S E); [suf|cbn [List.length]; lia] end.
Ltac ihs E := repeat match goal with
  | IH : ends_eof _ -> 2 <= length _ -> _ |- _ => specialize (IH ltac:(ends E) ltac:(lia))
  end.
Ltac ins_all := rewrite ?ins_cons in * by (cbn [List.length]; lia); repeat match goal with
  | H : token_then _ _ _ |- _ => apply then_ins in H; [|lia]; revert H
  | H : name_then _ _ _ |- _ => apply name_ins in H; [|lia]; revert H
  | H : paren_then _ _ |- _ => apply paren_ins in H; [|lia]; revert H
  | H : opens _ _ _ |- _ => apply opens_ins in H; [|lia]; revert H
  | H : optional _ _ _ |- _ => apply optional_ins in H; [|lia]; revert H
  | H : ~ starts _ ?r |- _ =>
      lazymatch r with ins _ => fail | _ => 
        assert (~ starts _ (ins r)) by (intros ?S; apply H; eapply starts_ins; [lia|eassumption]); clear H end
  | H : starts _ ?r |- _ =>
      lazymatch r with ins _ => fail | _ => apply starts_ins' in H; [|lia]; revert H end
  end; intros.

Lemma insertion : forall b N i v r, derives false b N i v r -> ends_eof i -> 2 <= length r ->
  derives false b N (ins i) v (ins r).
Proof.
  induction 1; intros E L; lengths; try discriminate.
  all: try match goal with H : if ?f then token_then Semicolon ?a ?c else _ |- _ =>
    assert (length c <= length a) by
      (destruct f; [apply then_length in H; lia|];
       destruct H as [H|(_ & _ & ->)]; [apply then_length in H; lia|lia]) end.
  all: ihs E.
  all: ins_all.
  all: try (econstructor; eassumption).
  - eapply d_assignment; [apply IHderives1; auto; lia|eassumption|eassumption|assumption].
  - apply d_tail_end. now apply no_operator_ins.
  - eapply d_bare_map; [|eassumption|assumption]. apply entry_ins; auto. lia.
  - destruct i as [|u i].
    + exfalso. destruct E as (j & e & Q & K). destruct j as [|a [|a' [|]]]; try discriminate.
      injection Q as _ ->. congruence.
    + rewrite ins_cons by (cbn; lia). now constructor.
  - apply d_entries_none. rewrite entry_ins; auto.
  - eapply d_entries_last; try eassumption. apply no_separator_ins; auto. ends E.
  - eapply d_entries_more; try eassumption. apply separator_ins; auto; [ends E|lia].
  - eapply d_var_init; try eassumption.
    destruct for_init; [apply then_ins; auto; lia|].
    destruct H3 as [H3|(S1 & S2 & ->)]; [left; apply then_ins; auto; lia|].
    right. split; [apply starts_ins'; auto; lia|]. split; auto. intros Z. apply S2. now apply starts_ins.
Qed.

(** Expressions may also end right before the last token. *)
Definition flexible (N : sym) : Prop :=
  match N with
  | Expression | Target | Binary _ | BinaryTail _ _ | Unary | Call | CallTail _ | Primary | Arguments | Elements
  | Entries | Function _ | Block | Statements _ => True
  | _ => False
  end.
Lemma not_starts_ins : forall ks r, existsb (tt_eqb Terminator) ks = false -> 1 <= length r ->
  ~ starts ks r -> ~ starts ks (ins r).
Proof.
  intros ks [|t [|u r]] N L H; cbn in *; try lia; auto. rewrite X. intros I.
  assert (existsb (tt_eqb Terminator) ks = true); [|congruence]. apply existsb_exists.
  exists Terminator. split; auto.
Qed.
Lemma no_operator_ins' : forall n r, 1 <= length r -> no_operator n r -> no_operator n (ins r).
Proof.
  intros n [|t [|u r]] L H; cbn in *; try lia; auto. rewrite X. destruct n as [|[|[|[|[|[|n]]]]]]; reflexivity.
Qed.
Lemma entry_ins' : forall r, ends_eof r -> 1 <= length r -> (entry_here (ins r) <-> entry_here r).
Proof.
  intros r E L. destruct (Nat.eq_dec (length r) 1) as [L1|L1]; [|apply entry_ins; auto; lia].
  destruct r as [|t [|]]; try discriminate. cbn. split; [now intros ?%entry_short|].
  intros (u & c & q & Q & _). discriminate.
Qed.
Lemma no_separator_ins' : forall r, ends_eof r -> 1 <= length r -> (forall q, ~ separator r q) ->
  forall q, ~ separator (ins r) q.
Proof.
  intros r E L N q. destruct (Nat.eq_dec (length r) 1) as [L1|L1]; [|apply no_separator_ins; auto; lia].
  destruct r as [|t [|]]; try discriminate. cbn.
  destruct E as (j & e & Q & K). destruct j as [|? [|]]; try discriminate. injection Q as <-.
  intros [(u & Q & K')|[(u & Q & K') D]]; injection Q as <- <-; [congruence|].
  destruct D as [(u & c & q & Q & _)|[D|[]]]; [discriminate|congruence].
Qed.
Lemma starts_ins1 : forall ks r, 1 <= length r -> starts ks r -> ~ In Eof ks -> ends_eof r -> starts ks (ins r).
Proof.
  intros ks [|t [|u r]] L; cbn in *; auto. intros I N (j & e & Q & K).
  destruct j as [|? [|]]; try discriminate. injection Q as <-. elim N. congruence.
Qed.
Ltac ihs' E := repeat match goal with
  | IH : flexible _ -> ends_eof _ -> 1 <= _ -> _ |- _ =>
      specialize (IH I ltac:(ends E) ltac:(cbn [List.length]; lia))
  | IH : flexible _ -> _ |- _ => clear IH
  end.
Ltac ins_some := rewrite ?ins_cons in * by (cbn [List.length]; lia); repeat match goal with
  | H : token_then _ _ _ |- _ => apply then_ins in H; [|lia]; revert H
  | H : name_then _ _ _ |- _ => apply name_ins in H; [|lia]; revert H
  | H : paren_then _ _ |- _ => apply paren_ins in H; [|lia]; revert H
  | H : opens _ _ _ |- _ => apply opens_ins in H; [|lia]; revert H
  | H : optional _ _ _ |- _ => apply optional_ins in H; [|lia]; revert H
  | H : ~ starts _ ?r |- _ =>
      lazymatch r with ins _ => fail | _ => apply not_starts_ins in H; [|reflexivity|lia]; revert H end
  end; intros.
Lemma separator_ins1 : forall r q, ends_eof r -> separator r q -> 1 <= length q -> separator (ins r) (ins q).
Proof.
  intros r q E H L. destruct (Nat.eq_dec (length q) 1) as [L1|L1]; [|apply separator_ins; auto; lia].
  assert (E' : ends_eof q) by (eapply ends_suffix; [eapply suffix_separator; eauto|auto|lia]).
  destruct H as [T|[T D]]; [left; apply then_ins; auto|]. exfalso.
  destruct q as [|t [|]]; try discriminate. destruct E' as (j & e & Q & K).
  destruct j as [|? [|]]; try discriminate. injection Q as <-.
  destruct D as [(u & c & q & Q & _)|[D|[]]]; [discriminate|congruence].
Qed.
Lemma statements_move : forall trailing b k i v r, derives trailing b (Statements k) i v r -> length r < length i.
Proof.
  intros trailing b k i v r H. remember (Statements k) as N. revert HeqN.
  induction H; intros Q; try discriminate.
  - apply then_length in H. lia.
  - specialize (IHderives2 Q). apply derives_length in H. lia.
Qed.
Lemma insertion_end : forall b N i v r, derives false b N i v r -> flexible N -> ends_eof i -> 1 <= length r ->
  derives false b N (ins i) v (ins r).
Proof.
  induction 1; intros F E L; try contradiction; lengths; try discriminate.
  all: ihs' E.
  all: lazymatch goal with H : starts [RightBracket] ?r |- _ => assert (EB : ends_eof r); [ends E|] | _ => idtac end.
  all: lazymatch goal with H : derives _ _ Parameters ?a _ _ |- _ => assert (EP : ends_eof a); [ends E|] | _ => idtac end.
  all: ins_some.
  all: try (econstructor; eassumption).
  - apply d_tail_end. now apply no_operator_ins'.
  - destruct i as [|u i].
    + exfalso. assert (M := derives_moves _ _ _ _ _ _ H0). destruct M as [M _]. destruct (M I) as [M'|[M' ST]].
      * cbn in M'. lia.
      * cbn in ST. destruct ST as [ST|[]]. rewrite <- ST in H. cbn in H. intuition discriminate.
    + rewrite ins_cons in * by (cbn; lia). eapply d_call_juxtaposed; eassumption.
  - eapply d_bare_map; [|eassumption|assumption]. apply entry_ins'; auto. lia.
  - destruct i as [|u i].
    + exfalso. destruct E as (j & e & Q & K). destruct j as [|a [|a' [|]]]; try discriminate.
      injection Q as _ ->. congruence.
    + rewrite ins_cons by (cbn; lia). now constructor.
  - eapply d_elements_comma; try eassumption. apply starts_ins1; auto. intros [Z|[]]. discriminate Z.
  - apply d_entries_none. rewrite entry_ins'; auto.
  - eapply d_entries_last; try eassumption. apply no_separator_ins'; auto. ends E.
  - eapply d_entries_more; try eassumption. apply separator_ins1; auto; [ends E|lia].
  - eapply d_function_some; try eassumption. apply insertion; auto; lia.
  - assert (M := statements_move _ _ _ _ _ _ H0).
    eapply d_statements_more; [|eassumption]. apply insertion; auto. lia.
Qed.
(** The last token may be the only [Eof]. *)
Definition eof_only (i : list token) : Prop := forall a t c, i = a ++ t :: c -> t_type t = Eof -> c = nil.
Lemma only_suffix : forall i r, suffix i r -> eof_only i -> eof_only r.
Proof. intros i r [p ->] H a t c -> K. apply (H (p ++ a) t c); auto. now rewrite app_assoc. Qed.
Lemma only_start : forall r, eof_only r -> starts [Eof] r -> exists e, r = [e] /\ t_type e = Eof.
Proof.
  intros [|t r] H S; [contradiction|]. destruct S as [S|[]]. assert (r = nil) by (apply (H nil t r); auto).
  subst. eauto.
Qed.
Definition open_end (N : sym) : Prop :=
  match N with ExpressionStatement | Statement | Branch | Declaration | Program | ForInit => True | _ => False end.
Definition closed (N : sym) : Prop :=
  match N with Statements k | Methods k => k <> Eof | _ => True end.
Definition with_line_end (b : bool) (N : sym) (i : list token) (v : val) (r : list token) : Prop :=
  exists e, r = [e] /\ t_type e = Eof /\ ends_eof i /\ 2 <= length i /\ derives false b N (ins i) v [y].

Ltac onlyeof E := match goal with |- eof_only ?r => apply (fun S => only_suffix _ r S E); suf end.
Ltac clo := cbn [closed]; first [exact I|assumption|discriminate|
  match goal with H : opens _ _ _ |- _ => inversion H; subst; discriminate end].
Ltac cases E := repeat match goal with
  | IH : eof_only _ -> closed _ -> _ |- _ =>
    specialize (IH ltac:(onlyeof E) ltac:(clo)); destruct IH as [IH|[?O IH]]; [|cbn [open_end] in *; try contradiction]
  end.
Lemma ends_prefix : forall i r, suffix i r -> ends_eof r -> ends_eof i.
Proof. intros i r [p ->] (j & e & -> & K). exists (p ++ j), e. split; auto. now rewrite app_assoc. Qed.
Lemma then_eof : forall k e r, token_then k [e] r -> t_type e = Eof -> k = Eof.
Proof. intros k e r (t & Q & K) E. injection Q as <- _. congruence. Qed.
Lemma first_eof : forall trailing b N e v r, derives trailing b N [e] v r -> t_type e = Eof ->
  first_of N <> nil -> In Eof (first_of N).
Proof. intros trailing b N e v r H K F. apply first in H; auto. cbn in H. now rewrite K in H. Qed.
Ltac inserted := repeat match goal with
  | IH : derives false _ _ ?j _ ?q |- _ =>
    lazymatch j with ins _ => fail | _ => idtac end;
    apply insertion in IH; [|match goal with E : ends_eof ?i |- _ => apply (fun S => ends_suffix i j S E); [suf|lia] end|lia];
    revert IH
  end; intros.
(** A derivation whose last part lacks a line end. *)
Ltac final W := let e := fresh "e" in let K := fresh "K" in let EE := fresh "EE" in
  let LE := fresh "LE" in let DE := fresh "DE" in
  destruct W as (e & -> & K & EE & LE & DE); right; split; [exact I|];
  match goal with |- with_line_end _ _ ?i _ _ =>
    let EI := fresh "EI" in
    match type of EE with ends_eof ?j =>
      assert (EI : ends_eof i) by (apply (fun S => ends_prefix i j S EE); suf) end;
    exists e; split; [reflexivity|]; split; [exact K|]; split; [exact EI|]; split; [lia|]; clear EE; lengths; inserted; ins_all end.

Lemma line_end : forall b N i v r, derives true b N i v r -> eof_only i -> closed N ->
  derives false b N i v r \/ (open_end N /\ with_line_end b N i v r).
Proof.
  induction 1; intros E C; lengths; cases E.
  all: try (left; econstructor; eassumption).
  - exfalso. destruct IHderives1 as (e & -> & K & _). cbn in C.
    inversion H0; subst; [match goal with T : token_then _ _ _ |- _ => apply then_eof in T; auto end|].
    match goal with D : derives true _ Declaration _ _ _ |- _ => apply first_eof in D; auto; [|discriminate] end.
    cbn in *. intuition discriminate.
  - final IHderives. now apply d_statement.
  - final IHderives. apply d_expression_statement; auto.
  - (* the end of the program instead of the line end *)
    right. split; [exact I|].
    assert (ER : eof_only r) by onlyeof E.
    destruct (only_start r ER H1) as (e0 & -> & K).
    assert (LT := derives_moves _ _ _ _ _ _ H). destruct LT as [LT _]. specialize (LT I).
    exists e0. split; auto. split; auto.
    assert (EE : ends_eof i).
    { apply (ends_prefix i [e0]); auto. exists nil, e0. auto. }
    assert (L2 : 2 <= length i).
    { destruct LT as [LT|[LT S1]]; [cbn in LT; lia|]. exfalso. subst i. cbn in S1. rewrite K in S1. intuition discriminate. }
    split; auto. split; auto.
    eapply d_expression_line.
    + apply insertion_end; [exact IHderives|exact I|exact EE|cbn; lia].
    + exists x. auto.
  - final IHderives. apply d_branch_statement; auto.
  - final IHderives2. eapply d_if; try eassumption. cbn. rewrite Y. intuition discriminate.
  - first [final IHderives3; eapply d_if_else; eassumption
      |exfalso; destruct IHderives2 as (e & -> & K & _);
       match goal with T : token_then _ [_] _ |- _ => apply then_eof in T; [discriminate|auto] end].
  - first [final IHderives3; eapply d_if_else; eassumption
      |exfalso; destruct IHderives2 as (e & -> & K & _);
       match goal with T : token_then _ [_] _ |- _ => apply then_eof in T; [discriminate|auto] end].
  - first [final IHderives3; eapply d_if_else; eassumption
      |exfalso; destruct IHderives2 as (e & -> & K & _);
       match goal with T : token_then _ [_] _ |- _ => apply then_eof in T; [discriminate|auto] end].
  - final IHderives2. eapply d_while; eassumption.
  - final IHderives. now apply d_for_expression.
  - first [final IHderives4; eapply d_for; eassumption
      |exfalso; destruct IHderives1 as (e & -> & K & _);
       match goal with D : derives true _ Condition _ _ _ |- _ => inversion D; subst end;
       [match goal with T : starts _ [_] |- _ => cbn in T; rewrite K in T; intuition discriminate end
       |match goal with D : derives true _ Expression _ _ _ |- _ => apply first_eof in D; auto; [|discriminate] end;
        cbn in *; intuition discriminate]].
  - first [final IHderives4; eapply d_for; eassumption
      |exfalso; destruct IHderives1 as (e & -> & K & _);
       match goal with D : derives true _ Condition _ _ _ |- _ => inversion D; subst end;
       [match goal with T : starts _ [_] |- _ => cbn in T; rewrite K in T; intuition discriminate end
       |match goal with D : derives true _ Expression _ _ _ |- _ => apply first_eof in D; auto; [|discriminate] end;
        cbn in *; intuition discriminate]].
  - first [final IHderives4; eapply d_for; eassumption
      |exfalso; destruct IHderives1 as (e & -> & K & _);
       match goal with D : derives true _ Condition _ _ _ |- _ => inversion D; subst end;
       [match goal with T : starts _ [_] |- _ => cbn in T; rewrite K in T; intuition discriminate end
       |match goal with D : derives true _ Expression _ _ _ |- _ => apply first_eof in D; auto; [|discriminate] end;
        cbn in *; intuition discriminate]].
  - first [final IHderives2; eapply d_program_more; eassumption
      |exfalso; destruct IHderives1 as (e & -> & K & _); destruct IHderives2 as (e' & _ & _ & _ & LE & _);
       cbn in LE; lia
      |right; split; [exact I|]; destruct IHderives1 as (e & -> & K & EE & LE & DE); inversion H0; subst;
       [exists e; repeat split; auto; eapply d_program_more; [exact DE|]; apply d_program_end; cbn; auto
       |match goal with D : derives true _ Declaration _ _ _ |- _ => apply first_eof in D; auto; [|discriminate] end;
        cbn in *; intuition discriminate]].
  - first [final IHderives2; eapply d_program_more; eassumption
      |exfalso; destruct IHderives1 as (e & -> & K & _); destruct IHderives2 as (e' & _ & _ & _ & LE & _);
       cbn in LE; lia
      |right; split; [exact I|]; destruct IHderives1 as (e & -> & K & EE & LE & DE); inversion H0; subst;
       [exists e; repeat split; auto; eapply d_program_more; [exact DE|]; apply d_program_end; cbn; auto
       |match goal with D : derives true _ Declaration _ _ _ |- _ => apply first_eof in D; auto; [|discriminate] end;
        cbn in *; intuition discriminate]].
  - first [final IHderives2; eapply d_program_more; eassumption
      |exfalso; destruct IHderives1 as (e & -> & K & _); destruct IHderives2 as (e' & _ & _ & _ & LE & _);
       cbn in LE; lia
      |right; split; [exact I|]; destruct IHderives1 as (e & -> & K & EE & LE & DE); inversion H0; subst;
       [exists e; repeat split; auto; eapply d_program_more; [exact DE|]; apply d_program_end; cbn; auto
       |match goal with D : derives true _ Declaration _ _ _ |- _ => apply first_eof in D; auto; [|discriminate] end;
        cbn in *; intuition discriminate]].
Qed.
End Insert.
