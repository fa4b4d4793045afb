(** What comes before the tokens [T] of a following statement does not see them:
    they can be cut off. *)
From Verif Require Import Base F64 Token Ast SpecGrammar ParseFirst SizeTree.
From Coq Require Import ZArith Lia.

(** The same token; where an Outdent stands does not matter. *)
Definition near (t u : token) : Prop := t = u \/ (t_type t = Outdent /\ t_type u = Outdent).
Lemma near_type t u : near t u -> t_type t = t_type u.
Proof. intros [->|[A B]]; congruence. Qed.
Lemma near_same t u k : near t u -> t_type t = k -> k <> Outdent -> t = u.
Proof. intros [->|[A B]]; congruence. Qed.

Section Cut.
Variables (T : list token) (e : token).
Hypothesis E : t_type e = Eof.
Hypothesis NT : ~ starts [Colon; RightBrace; RightBracket; RightParen; Semicolon] T.
Hypothesis NH : ~ this_here T.

Inductive cut : list token -> list token -> Prop :=
| cut_end : cut T [e]
| cut_more : forall t u i j, near t u -> cut i j -> cut (t :: i) (u :: j).
Lemma cut_length i j : cut i j -> length T <= length i.
Proof. induction 1; cbn; lia. Qed.
Lemma cut_cons t i j : cut (t :: i) j -> length T <= length i ->
  exists u j', j = u :: j' /\ near t u /\ cut i j'.
Proof.
  intros C L. inversion C as [Q|? u ? j' N C']; subst; [|eauto].
  exfalso. rewrite Q in L. cbn in L. lia.
Qed.
Lemma cut_cases t i j : cut (t :: i) j -> t :: i = T \/ exists u j', j = u :: j' /\ near t u /\ cut i j'.
Proof. intros C. inversion C; subst; eauto 6. Qed.
Lemma cut_tail t i j' : cut (t :: i) j' -> t :: i <> T -> length T <= length i.
Proof. intros C H. destruct (cut_cases _ _ _ C) as [Q|(u & j & _ & _ & C')]; [contradiction|]. eapply cut_length; eauto. Qed.
Lemma cut_starts ks i j : cut i j -> starts ks j -> ~ In Eof ks -> starts ks i.
Proof.
  intros [|t u i' j' N C] S NI; cbn in *; [rewrite E in S; contradiction|]. now rewrite (near_type _ _ N).
Qed.
Lemma cut_not ks i j : cut i j -> ~ starts ks i -> ~ In Eof ks -> ~ starts ks j.
Proof. intros C N NI S. apply N. eapply cut_starts; eauto. Qed.
Lemma cut_starts' ks i j : cut i j -> starts ks i -> ~ starts ks T -> starts ks j.
Proof. intros [|t u i' j' N C] S NI; cbn in *; [contradiction|]. now rewrite <- (near_type _ _ N). Qed.
Lemma cut_eof i j : cut i j -> starts [Eof] i -> starts [Eof] j.
Proof. intros [|t u i' j' N C] S; cbn in *; [auto|]. now rewrite <- (near_type _ _ N). Qed.
Lemma cut_token k i r j : cut i j -> token_then k i r -> length T <= length r ->
  exists s, token_then k j s /\ cut r s.
Proof.
  intros C (t & -> & K) L. destruct (cut_cons _ _ _ C L) as (u & j' & -> & N & C').
  exists j'. split; auto. exists u. split; auto. rewrite <- (near_type _ _ N). exact K.
Qed.
Lemma cut_paren i r j : cut i j -> paren_then i r -> length T <= length r -> exists s, paren_then j s /\ cut r s.
Proof.
  intros C [H|H] L; destruct (cut_token _ _ _ _ C H L) as (s & A & B); exists s; split; auto; [left|right]; auto.
Qed.
Lemma cut_name t i r j : cut i j -> name_then t i r -> length T <= length r -> exists s, name_then t j s /\ cut r s.
Proof.
  intros C (-> & K) L. destruct (cut_cons _ _ _ C L) as (u & j' & -> & N & C').
  assert (t = u) by (apply (near_same _ _ _ N K); discriminate). subst u. exists j'. split; auto. now split.
Qed.
Lemma cut_optional k i r j : cut i j -> optional k i r -> length T <= length r -> k <> Eof ->
  exists s, optional k j s /\ cut r s.
Proof.
  intros C O L NE. inversion O; subst.
  - destruct (cut_cons _ _ _ C L) as (u & j' & -> & N & C'). exists j'. split; auto. constructor.
    now rewrite <- (near_type _ _ N).
  - exists j. split; auto. constructor. eapply cut_not; eauto. cbn. intuition congruence.
Qed.
Lemma cut_opens k i r j : cut i j -> opens k i r -> length T <= length r -> exists s, opens k j s /\ cut r s.
Proof.
  intros C O L. inversion O; subst.
  - destruct (cut_cons _ _ _ C) as (x & j' & -> & N & C'); [cbn; lia|].
    destruct (cut_cons _ _ _ C' L) as (y & j & -> & N' & C''). exists j. split; auto.
    constructor; [rewrite <- (near_type _ _ N)|rewrite <- (near_type _ _ N')]; auto.
  - destruct (cut_cons _ _ _ C L) as (x & j' & -> & N & C'). exists j'. split; auto.
    constructor. now rewrite <- (near_type _ _ N).
Qed.
Lemma cut_no_operator n i j : cut i j -> no_operator n i -> no_operator n j.
Proof.
  intros [|t u i' j' N C] H; cbn in *.
  - rewrite E. do 6 (destruct n as [|n]; [reflexivity|]). reflexivity.
  - now rewrite <- (near_type _ _ N).
Qed.
Lemma cut_entry i j : cut i j -> entry_here j -> entry_here i.
Proof.
  intros C (t & c & r & -> & I & K). inversion C as [|t' ? i' ? N C']; subst.
  inversion C' as [|c' c0 i'' j' N' C'']; subst; [congruence|]. exists t', c', i''.
  rewrite (near_type _ _ N), (near_type _ _ N'). auto.
Qed.
Lemma cut_entry' i j : cut i j -> entry_here i -> length T < length i -> entry_here j.
Proof.
  intros C (t & c & r & -> & I & K) L.
  destruct (cut_cons _ _ _ C) as (u & j' & -> & N & C'); [cbn in *; lia|].
  destruct (cut_cases _ _ _ C') as [Q|(c' & j & -> & N' & C'')].
  - exfalso. apply NT. rewrite <- Q. cbn. auto.
  - exists u, c', j. rewrite <- (near_type _ _ N), <- (near_type _ _ N'). auto.
Qed.
Lemma cut_separator i r j b v r' trailing : cut i j -> separator i r -> derives trailing b Entries r v r' ->
  length T <= length r' -> exists s, separator j s /\ cut r s.
Proof.
  intros C S D L. assert (LR := derives_length _ _ _ _ _ _ D). destruct S as [S|[S H]].
  - destruct (cut_token _ _ _ _ C S) as (s & A & B); [lia|]. exists s. split; auto. now left.
  - destruct (cut_token _ _ _ _ C S) as (s & A & B); [lia|]. exists s. split; auto. right. split; auto.
    destruct H as [H|H].
    + left. eapply cut_entry'; eauto. assert (M := entries_move _ _ _ _ _ D H). lia.
    + right. eapply cut_starts'; eauto. intros Z. apply NT. eapply starts_incl; [exact Z|inclb].
Qed.
Lemma cut_no_separator i j : cut i j -> (forall r, ~ separator i r) -> forall s, ~ separator j s.
Proof.
  intros C N s H. destruct H as [(t & -> & K)|[(t & -> & K) H]].
  - inversion C as [|x ? i' ? Nr C']; subst; [congruence|]. apply (N i'). left. exists x. split; auto.
    now rewrite (near_type _ _ Nr).
  - inversion C as [|x ? i' ? Nr C']; subst; [congruence|]. apply (N i'). right. split.
    + exists x. split; auto. now rewrite (near_type _ _ Nr).
    + destruct H as [H|H]; [left; eapply cut_entry; eauto|right; eapply cut_starts; eauto; cbn; intuition discriminate].
Qed.
Lemma cut_first t i j k : cut (t :: i) j -> length T <= length i -> t_type t = k -> k <> Outdent ->
  exists j', j = t :: j' /\ cut i j'.
Proof.
  intros C L K N. destruct (cut_cons _ _ _ C L) as (u & j' & -> & Nr & C').
  assert (t = u) by (apply (near_same _ _ _ Nr K); auto). subst u. eauto.
Qed.

Ltac lens := repeat match goal with
  | H : token_then _ _ _ |- _ => let L := fresh "L" in assert (L := then_length _ _ _ H); revert H
  | H : name_then _ _ _ |- _ => let L := fresh "L" in assert (L := name_length _ _ _ H); revert H
  | H : paren_then _ _ |- _ => let L := fresh "L" in assert (L := paren_length _ _ H); revert H
  | H : opens _ _ _ |- _ => let L := fresh "L" in assert (L := opens_length _ _ _ H); revert H
  | H : optional _ _ _ |- _ => let L := fresh "L" in assert (L := optional_length _ _ _ H); revert H
  | H : separator _ _ |- _ => let L := fresh "L" in assert (L := separator_length _ _ H); revert H
  | H : derives _ _ _ _ _ _ |- _ => let L := fresh "L" in assert (L := derives_length _ _ _ _ _ _ H); revert H
  end; intros; cbn [List.length] in *.
Ltac carry :=
  match goal with
  | C : cut ?i ?j, H : token_then _ ?i _ |- _ =>
    destruct (cut_token _ _ _ _ C H ltac:(lia)) as (? & ? & ?); clear H
  | C : cut ?i ?j, H : paren_then ?i _ |- _ =>
    destruct (cut_paren _ _ _ C H ltac:(lia)) as (? & ? & ?); clear H
  | C : cut ?i ?j, H : name_then _ ?i _ |- _ =>
    destruct (cut_name _ _ _ _ C H ltac:(lia)) as (? & ? & ?); clear H
  | C : cut ?i ?j, H : optional _ ?i _ |- _ =>
    destruct (cut_optional _ _ _ _ C H ltac:(lia) ltac:(discriminate)) as (? & ? & ?); clear H
  | C : cut ?i ?j, H : opens _ ?i _ |- _ =>
    destruct (cut_opens _ _ _ _ C H ltac:(lia)) as (? & ? & ?); clear H
  | C : cut ?i ?j, H : no_operator _ ?i |- _ => apply (cut_no_operator _ _ _ C) in H
  | C : cut ?i ?j, H : ~ starts _ ?i |- _ =>
    apply (cut_not _ _ _ C) in H; [|cbn; intuition discriminate]
  | C : cut ?i ?j, H : starts [Eof] ?i |- _ => apply (cut_eof _ _ C) in H
  | C : cut ?i ?j, H : starts ?ks ?i |- _ =>
    apply (cut_starts' _ _ _ C) in H; [|let Z := fresh in intros Z; apply NT; eapply starts_incl; [exact Z|inclb]]
  | C : cut (?t :: ?i) ?j, H : t_type ?t = ?k |- _ =>
    destruct (cut_first _ _ _ _ C ltac:(lia) H ltac:(discriminate)) as (? & ? & ?); subst j; clear C
  | IH : length T <= length ?r -> forall j, cut ?i j -> _, C : cut ?i ?j |- _ =>
    destruct (IH ltac:(lia) _ C) as (? & ? & ?); clear IH
  end.

Variable trailing : bool.
Lemma cut_off : forall b N i v r, derives trailing b N i v r -> length T <= length r ->
  forall j, cut i j -> exists s, cut r s /\ derives trailing b N j v s.
Proof.
  induction 1; intros L j C; lens.
  all: repeat carry.
  all: try (eexists; split; [eassumption|]; econstructor; eassumption).
  - (* assignment *)
    destruct (IHderives1 ltac:(lia) _ C) as (s & C1 & D1).
    destruct (cut_first _ _ _ _ C1 ltac:(lia) H0 ltac:(discriminate)) as (s1 & -> & C2).
    destruct (IHderives2 ltac:(lia) _ C2) as (s2 & C3 & D2). exists s2. split; auto. eapply d_assignment; eauto.
  - (* operator *)
    assert (K : t_type t <> Outdent).
    { intros K. rewrite K in H. do 6 (destruct n as [|n]; [discriminate H|]). discriminate H. }
    destruct (cut_first _ _ _ _ C ltac:(lia) eq_refl K) as (s1 & -> & C2).
    repeat carry. eexists. split; [eassumption|]. eapply d_tail_more; eauto.
  - (* prefix *)
    assert (K : t_type t <> Outdent) by (intros K; rewrite K in H; discriminate H).
    destruct (cut_first _ _ _ _ C ltac:(lia) eq_refl K) as (s1 & -> & C2).
    repeat carry. eexists. split; [eassumption|]. eapply d_unary; eauto.
  - (* juxtaposed *)
    assert (K : t_type t <> Outdent) by (intros K; rewrite K in H; cbn in H; intuition discriminate).
    assert (M : length r1 < S (length i)).
    { destruct (proj1 (derives_moves _ _ _ _ _ _ H0) I) as [M|[-> [M|[]]]]; [auto|].
      rewrite <- M in H. cbn in H. intuition discriminate. }
    destruct (cut_first _ _ _ _ C ltac:(lia) eq_refl K) as (s1 & -> & C2).
    eexists. split; [eassumption|]. eapply d_call_juxtaposed; eauto.
  - (* variable *)
    assert (K : t_type t <> Outdent) by (intros K; rewrite K in H; cbn in H; intuition discriminate).
    destruct (cut_first _ _ _ _ C ltac:(lia) eq_refl K) as (s1 & -> & C2).
    carry. eexists. split; [eassumption|]. now apply d_variable.
  - (* bare map *)
    match goal with D : derives _ _ Entries _ _ _ |- _ => assert (M := entries_move _ _ _ _ _ D H) end.
    eexists. split; [eassumption|]. eapply d_bare_map; eauto. eapply cut_entry'; eauto. lia.
  - (* this map *)
    destruct (cut_cases _ _ _ C) as [Q|(u & j1 & -> & N & C1)].
    { exfalso. apply NH. rewrite <- Q. exists t, c, i. auto. }
    destruct (cut_cases _ _ _ C1) as [Q|(w & j2 & -> & N1 & C2)].
    { exfalso. apply NT. rewrite <- Q. cbn. auto. }
    exists (u :: w :: j2). split; auto. apply d_this_map; [rewrite <- (near_type _ _ N)|rewrite <- (near_type _ _ N1)]; auto.
  - (* no entries *)
    exists j. split; auto. apply d_entries_none. intros Z. apply H. eapply cut_entry; eauto.
  - (* the last entry *)
    assert (K : t_type t <> Outdent) by (destruct H as [[K _]|[K _]]; congruence).
    destruct (cut_first _ _ _ _ C ltac:(cbn; lia) eq_refl K) as (s1 & -> & C2). repeat carry.
    eexists. split; [eassumption|]. eapply d_entries_last; eauto. eapply cut_no_separator; eauto.
  - (* more entries *)
    assert (K : t_type t <> Outdent) by (destruct H as [[K _]|[K _]]; congruence).
    destruct (cut_first _ _ _ _ C ltac:(cbn; lia) eq_refl K) as (s1 & -> & C2). carry. carry.
    match goal with C : cut r1 _, D : derives _ _ Entries _ _ _ |- _ =>
      destruct (cut_separator _ _ _ _ _ _ _ C H2 D) as (s2 & Sp & C3); [lia|] end.
    carry. eexists. split; [eassumption|]. eapply d_entries_more; eauto.
  - (* initialiser *)
    assert (LR : length r <= length r1).
    { destruct for_init; [apply then_length in H3; lia|].
      destruct H3 as [H3|(_ & _ & ->)]; [apply then_length in H3; lia|lia]. }
    repeat carry. destruct for_init; [carry; eexists; split; [eassumption|]; eapply d_var_init; eauto|].
    destruct H3 as [H3|(S1 & S2 & ->)]; [carry; eexists; split; [eassumption|]; eapply d_var_init; eauto|].
    assert (M : length r1 < length i3).
    { destruct (proj1 (derives_moves _ _ _ _ _ _ H2) I) as [M|[-> M]]; [auto|].
      destruct i3; cbn in *; [contradiction|]. intuition congruence. }
    assert (S3 : starts [Indent; LeftBrace] x1).
    { destruct H7 as [|t u i' j' N C']; [lia|]. cbn in *. now rewrite <- (near_type _ _ N). }
    exists x2. split; auto. eapply d_var_init; eauto. right. split; auto. split; auto.
    eapply cut_not; eauto. cbn. intuition discriminate.
Qed.
End Cut.

(** ** Programs *)
Inductive declares (trailing b : bool) : list token -> list stmt -> list token -> Prop :=
| dc_none : forall i, declares trailing b i nil i
| dc_more : forall i st r1 l r, derives trailing b Declaration i (VS st) r1 ->
    declares trailing b r1 l r -> declares trailing b i (st :: l) r.
Lemma declares_length trailing b i l r : declares trailing b i l r -> length r <= length i.
Proof. induction 1; auto. apply derives_length in H. lia. Qed.
Lemma program_split trailing b : forall l k i r, derives trailing b Program i (VSs l) r -> k < length l ->
  exists T st r1, declares trailing b i (firstn k l) T /\ derives trailing b Declaration T (VS st) r1.
Proof.
  induction l as [|st l IH]; intros k i r D K; [cbn in K; lia|]. inversion D; subst.
  destruct k as [|k].
  - exists i, st, r1. split; [constructor|auto].
  - destruct (IH k r1 r) as (T & st' & r2 & A & B); auto; [cbn in K; lia|].
    exists T, st', r2. split; auto. cbn [firstn]. econstructor; eauto.
Qed.
Lemma statement_start trailing b T st r1 : derives trailing b Declaration T (VS st) r1 ->
  ~ starts [Colon; RightBrace; RightBracket; RightParen; Semicolon; Terminator; Outdent; Eof] T /\ ~ this_here T.
Proof.
  intros D. split.
  - eapply not_first; [exact D|discriminate|reflexivity].
  - intros H. destruct (stuck _ _ _ _ _ _ D I H) as [X _]. discriminate X.
Qed.
Lemma declares_cut T e : t_type e = Eof ->
  ~ starts [Colon; RightBrace; RightBracket; RightParen; Semicolon] T -> ~ this_here T ->
  forall trailing b i l r, declares trailing b i l r -> r = T -> forall j, cut T e i j ->
  derives trailing b Program j (VSs l) [e].
Proof.
  intros E NT NH. induction 1; intros Q j C; subst.
  - assert (j = [e]) as ->.
    { inversion C as [|t u i j' N C' Q]; subst; auto. exfalso. apply cut_length in C'. cbn in C'. lia. }
    constructor. cbn. auto.
  - assert (L := declares_length _ _ _ _ _ H0).
    destruct (cut_off T e E NT NH trailing _ _ _ _ _ H L j C) as (s & C' & D').
    econstructor; [exact D'|]. now apply IHdeclares.
Qed.

(** ** Indents and Outdents *)
Definition level_of (t : token) : Z :=
  (match t_type t with Indent => 1 | Outdent => -1 | _ => 0 end)%Z.
Fixpoint level (l : list token) : Z :=
  (match l with nil => 0 | t :: r => level_of t + level r end)%Z.
Lemma level_app l l' : level (l ++ l') = (level l + level l')%Z.
Proof. induction l as [|t l IH]; cbn [level app]; lia. Qed.
Definition ends_level (N : sym) : Z :=
  (match N with Statements Outdent | Methods Outdent => -1 | _ => 0 end)%Z.
Lemma level_token k i r : token_then k i r -> level i = (level r + match k with Indent => 1 | Outdent => -1 | _ => 0 end)%Z.
Proof. intros (t & -> & K). cbn [level]. unfold level_of. rewrite K. lia. Qed.
Lemma level_name n i r : name_then n i r -> level i = level r.
Proof. intros (-> & K). cbn [level]. unfold level_of. rewrite K. lia. Qed.
Lemma level_paren i r : paren_then i r -> level i = level r.
Proof. intros [H|H]; apply level_token in H; lia. Qed.
Lemma level_optional i r : optional Terminator i r -> level i = level r.
Proof. intros H. inversion H; subst; auto. cbn [level]. unfold level_of. rewrite H0. lia. Qed.
Lemma level_separator i r : separator i r -> level i = level r.
Proof. intros [H|[H _]]; apply level_token in H; lia. Qed.
Lemma level_opens k i r : opens k i r -> (k = Outdent /\ level i = level r + 1 \/ k = RightBrace /\ level i = level r)%Z.
Proof.
  intros O. inversion O; subst; cbn [level]; unfold level_of.
  - rewrite H, H0. left. split; auto. lia.
  - rewrite H. right. split; auto.
Qed.
Definition no_opening (N : sym) : Prop :=
  match N with Statements k | Methods k => k <> Indent | _ => True end.
Lemma derives_level : forall trailing b N i v r, derives trailing b N i v r -> no_opening N ->
  level i = (level r + ends_level N)%Z.
Proof.
  induction 1; intros F; cbn [ends_level no_opening] in *;
  repeat match goal with
  | H : token_then _ _ _ |- _ => apply level_token in H; cbn in H
  | H : name_then _ _ _ |- _ => apply level_name in H
  | H : paren_then _ _ |- _ => apply level_paren in H
  | H : optional _ _ _ |- _ => apply level_optional in H
  | H : separator _ _ |- _ => apply level_separator in H
  | H : opens _ _ _ |- _ => apply level_opens in H; destruct H as [[-> H]|[-> H]]
  | IH : True -> level _ = _ |- _ => specialize (IH I)
  | IH : ?k <> Indent -> level _ = _, F : ?k <> Indent |- _ => specialize (IH F)
  | IH : _ <> Indent -> level _ = _ |- _ => specialize (IH ltac:(discriminate))
  end; cbn beta iota in *; cbn [level] in *; unfold level_of in *;
  repeat match goal with
  | H : t_type ?t = _ |- context [t_type ?t] => rewrite H
  | H : t_type ?t = _, L : context [t_type ?t] |- _ => lazymatch L with H => fail | _ => rewrite H in L end
  end;
  try lia.
  all: try match goal with H : key_of ?t _ |- _ => destruct H as [[K _]|[K _]]; rewrite K end; try lia.
  - destruct (t_type t); try lia; do 6 (destruct n as [|n]; [discriminate H|]); discriminate H.
  - destruct (t_type t); try lia; discriminate H.
  - destruct (t_type t); cbn in H; try lia; intuition discriminate.
  - destruct k; try lia; contradiction.
  - destruct k; try lia; contradiction.
  - destruct for_init; lia.
  - destruct for_init; [apply level_token in H3; lia|].
    destruct H3 as [H3|(_ & _ & ->)]; [apply level_token in H3; lia|lia].
Qed.
Lemma declares_level trailing b i l r : declares trailing b i l r -> level i = level r.
Proof. induction 1; auto. apply derives_level in H; [|exact I]. cbn in H. lia. Qed.
