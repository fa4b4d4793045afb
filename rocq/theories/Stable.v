(** What comes before the tokens [T] of a following statement sees only one or
    two of them: the others can be replaced. *)
From Verif Require Import Base F64 Token Ast SpecGrammar ParseFirst SizeTree Prefix.
From Coq Require Import ZArith Lia.

Section Swap.
Variables T T2 : list token.
Hypothesis Same : forall ks, starts ks T <-> starts ks T2.
Hypothesis Op : forall n, no_operator n T -> no_operator n T2.
Hypothesis NN : T <> nil.
Hypothesis En : entry_here T <-> entry_here T2.
Hypothesis NC : ~ starts [Colon; Terminator] T.
Hypothesis NH : ~ this_here T.

Inductive swap : list token -> list token -> Prop :=
| swap_end : swap T T2
| swap_more : forall t i j, swap i j -> swap (t :: i) (t :: j).
Lemma swap_length i j : swap i j -> length T <= length i.
Proof. induction 1; cbn; lia. Qed.
Lemma swap_cons t i j : swap (t :: i) j -> length T <= length i -> exists j', j = t :: j' /\ swap i j'.
Proof.
  intros C L. inversion C as [Q|? ? j' C']; subst; [|eauto].
  exfalso. rewrite Q in L. cbn in L. lia.
Qed.
Lemma swap_cases t i j : swap (t :: i) j -> t :: i = T \/ exists j', j = t :: j' /\ swap i j'.
Proof. intros C. inversion C; subst; eauto 6. Qed.
Lemma swap_starts ks i j : swap i j -> (starts ks i <-> starts ks j).
Proof. intros [|t i' j' C]; [apply Same|reflexivity]. Qed.
Lemma swap_not ks i j : swap i j -> ~ starts ks i -> ~ starts ks j.
Proof. intros C N S. apply N. eapply swap_starts; eauto. Qed.
Lemma swap_token k i r j : swap i j -> token_then k i r -> length T <= length r ->
  exists s, token_then k j s /\ swap r s.
Proof.
  intros C (t & -> & K) L. destruct (swap_cons _ _ _ C L) as (j' & -> & C').
  exists j'. split; auto. exists t. auto.
Qed.
Lemma swap_paren i r j : swap i j -> paren_then i r -> length T <= length r -> exists s, paren_then j s /\ swap r s.
Proof.
  intros C [H|H] L; destruct (swap_token _ _ _ _ C H L) as (s & A & B); exists s; split; auto; [left|right]; auto.
Qed.
Lemma swap_name t i r j : swap i j -> name_then t i r -> length T <= length r -> exists s, name_then t j s /\ swap r s.
Proof.
  intros C (-> & K) L. destruct (swap_cons _ _ _ C L) as (j' & -> & C'). exists j'. split; auto. now split.
Qed.
Lemma swap_optional k i r j : swap i j -> optional k i r -> length T <= length r -> exists s, optional k j s /\ swap r s.
Proof.
  intros C O L. inversion O; subst.
  - destruct (swap_cons _ _ _ C L) as (j' & -> & C'). exists j'. split; auto. now constructor.
  - exists j. split; auto. constructor. eapply swap_not; eauto.
Qed.
Lemma swap_opens k i r j : swap i j -> opens k i r -> length T <= length r -> exists s, opens k j s /\ swap r s.
Proof.
  intros C O L. inversion O; subst.
  - destruct (swap_cons _ _ _ C) as (j' & -> & C'); [cbn; lia|].
    destruct (swap_cons _ _ _ C' L) as (j & -> & C''). exists j. split; auto. now constructor.
  - destruct (swap_cons _ _ _ C L) as (j' & -> & C'). exists j'. split; auto. now constructor.
Qed.
Lemma swap_no_operator n i j : swap i j -> no_operator n i -> no_operator n j.
Proof. intros [|t i' j' C] H; cbn in *; auto. Qed.
Lemma swap_entry i j : swap i j -> (entry_here i <-> entry_here j).
Proof.
  intros [|t i' j' C]; [exact En|]. assert (S := swap_starts [Colon] _ _ C).
  split; intros (x & c & r & Q & I & K); injection Q as <- ->; cbn in S.
  - destruct j' as [|c' r']; [cbn in S; exfalso; apply S; now left|]. exists t, c', r'. repeat split; auto.
    destruct S as [S _]. destruct S as [S|[]]; [now left|]. congruence.
  - destruct i' as [|c' r']; [cbn in S; exfalso; apply S; now left|]. exists t, c', r'. repeat split; auto.
    destruct S as [_ S]. destruct S as [S|[]]; [now left|]. congruence.
Qed.
Lemma swap_separator i r j : swap i j -> separator i r -> length T <= length r -> exists s, separator j s /\ swap r s.
Proof.
  intros C S L. destruct S as [S|[S H]]; destruct (swap_token _ _ _ _ C S L) as (s & A & B); exists s; split; auto.
  - now left.
  - right. split; auto. destruct H as [H|H]; [left; now apply (swap_entry _ _ B)|right; now apply (swap_starts _ _ _ B)].
Qed.
Lemma swap_no_separator i j : swap i j -> (forall r, ~ separator i r) -> forall s, ~ separator j s.
Proof.
  intros C N s H. destruct C as [|t i j C].
  { destruct H as [(x & -> & K)|[(x & -> & K) H]].
    - assert (X : starts [Comma] T) by (apply Same; cbn; auto). destruct T as [|y T']; [contradiction|].
      destruct X as [X|[]]. apply (N T'). left. exists y. auto.
    - apply NC. apply Same. cbn. auto. }
  apply (N i).
  destruct H as [(x & Q & K)|[(x & Q & K) H]]; injection Q as <- <-.
  - left. exists t. auto.
  - right. split; [exists t; auto|]. destruct H as [H|H]; [left; now apply (swap_entry _ _ C)|right; now apply (swap_starts _ _ _ C)].
Qed.

Ltac lens := repeat match goal with
  | H : token_then _ _ _ |- _ => let L := fresh "L" in assert (L := then_length _ _ _ H); revert H
  | H : name_then _ _ _ |- _ => let L := fresh "L" in assert (L := name_length _ _ _ H); revert H
  | H : paren_then _ _ |- _ => let L := fresh "L" in assert (L := paren_length _ _ H); revert H
  | H : opens _ _ _ |- _ => let L := fresh "L" in assert (L := opens_length _ _ _ H); revert H
  | H : optional _ _ _ |- _ => let L := fresh "L" in assert (L := optional_length _ _ _ H); revert H
  | H : separator _ _ |- _ => let L := fresh "L" in assert (L := separator_length _ _ H); revert H
  | H : derives _ _ _ _ _ _ |- _ => let L := fresh "L" in assert (L := derives_length _ _ _ _ _ _ H); revert H
  end; intros; cbn [List.length] in *.
Ltac carry :=
  match goal with
  | C : swap ?i ?j, H : token_then _ ?i _ |- _ =>
    destruct (swap_token _ _ _ _ C H ltac:(lia)) as (? & ? & ?); clear H
  | C : swap ?i ?j, H : paren_then ?i _ |- _ =>
    destruct (swap_paren _ _ _ C H ltac:(lia)) as (? & ? & ?); clear H
  | C : swap ?i ?j, H : name_then _ ?i _ |- _ =>
    destruct (swap_name _ _ _ _ C H ltac:(lia)) as (? & ? & ?); clear H
  | C : swap ?i ?j, H : optional _ ?i _ |- _ =>
    destruct (swap_optional _ _ _ _ C H ltac:(lia)) as (? & ? & ?); clear H
  | C : swap ?i ?j, H : opens _ ?i _ |- _ =>
    destruct (swap_opens _ _ _ _ C H ltac:(lia)) as (? & ? & ?); clear H
  | C : swap ?i ?j, H : separator ?i _ |- _ =>
    destruct (swap_separator _ _ _ C H ltac:(lia)) as (? & ? & ?); clear H
  | C : swap ?i ?j, H : no_operator _ ?i |- _ => apply (swap_no_operator _ _ _ C) in H
  | C : swap ?i ?j, H : ~ starts _ ?i |- _ => apply (swap_not _ _ _ C) in H
  | C : swap ?i ?j, H : starts _ ?i |- _ => apply (swap_starts _ _ _ C) in H
  | C : swap ?i ?j, H : entry_here ?i |- _ => apply (swap_entry _ _ C) in H
  | C : swap ?i ?j, H : ~ entry_here ?i |- _ => rewrite (swap_entry _ _ C) in H
  | C : swap (?t :: ?i) ?j |- _ =>
    destruct (swap_cons _ _ _ C ltac:(lia)) as (? & ? & ?); subst j; clear C
  | IH : length T <= length ?r -> forall j, swap ?i j -> _, C : swap ?i ?j |- _ =>
    destruct (IH ltac:(lia) _ C) as (? & ? & ?); clear IH
  end.

Variable trailing : bool.
Lemma swapped : forall b N i v r, derives trailing b N i v r -> length T <= length r ->
  forall j, swap i j -> exists s, swap r s /\ derives trailing b N j v s.
Proof.
  induction 1; intros L j C; lens.
  all: repeat carry.
  all: try (eexists; split; [eassumption|]; econstructor; eassumption).
  - (* assignment *)
    destruct (IHderives1 ltac:(lia) _ C) as (s & C1 & D1).
    destruct (swap_cons _ _ _ C1 ltac:(lia)) as (s1 & -> & C2).
    destruct (IHderives2 ltac:(lia) _ C2) as (s2 & C3 & D2). exists s2. split; auto. eapply d_assignment; eauto.
  - (* juxtaposed *)
    assert (M : length r1 < S (length i)).
    { destruct (proj1 (derives_moves _ _ _ _ _ _ H0) I) as [M|[-> [M|[]]]]; [auto|].
      rewrite <- M in H. cbn in H. intuition discriminate. }
    destruct (swap_cons _ _ _ C ltac:(lia)) as (s1 & -> & C2).
    eexists. split; [eassumption|]. eapply d_call_juxtaposed; eauto.
  - (* this map *)
    destruct (swap_cases _ _ _ C) as [Q|(j1 & -> & C1)].
    { exfalso. apply NH. rewrite <- Q. exists t, c, i. auto. }
    destruct (swap_cases _ _ _ C1) as [Q|(j2 & -> & C2)].
    { exfalso. apply NC. rewrite <- Q. cbn. auto. }
    exists (t :: c :: j2). split; auto. now apply d_this_map.
  - (* the last entry *)
    destruct (swap_cons _ _ _ C ltac:(cbn; lia)) as (s1 & -> & C2). repeat carry.
    eexists. split; [eassumption|]. eapply d_entries_last; eauto. eapply swap_no_separator; eauto.
  - (* more entries *)
    destruct (swap_cons _ _ _ C ltac:(cbn; lia)) as (s1 & -> & C2). repeat carry.
    eexists. split; [eassumption|]. eapply d_entries_more; eauto.
  - (* initialiser *)
    assert (LR : length r <= length r1).
    { destruct for_init; [apply then_length in H3; lia|].
      destruct H3 as [H3|(_ & _ & ->)]; [apply then_length in H3; lia|lia]. }
    repeat carry. destruct for_init; [carry; eexists; split; [eassumption|]; eapply d_var_init; eauto|].
    destruct H3 as [H3|(S1 & S2 & ->)]; [carry; eexists; split; [eassumption|]; eapply d_var_init; eauto|].
    repeat carry. eexists. split; [eassumption|]. eapply d_var_init; eauto.
Qed.
Lemma declares_swap : forall b i l r, declares trailing b i l r -> r = T -> forall j, swap i j ->
  declares trailing b j l T2.
Proof.
  induction 1; intros Q j C; subst.
  - assert (j = T2) as ->.
    { inversion C as [Q|t i j' C' Q]; subst; auto. exfalso. apply swap_length in C'. rewrite <- Q in C'. cbn in C'. lia. }
    constructor.
  - assert (L := declares_length _ _ _ _ _ H0).
    destruct (swapped _ _ _ _ _ H L j C) as (s & C' & D').
    econstructor; [exact D'|]. now apply IHdeclares.
Qed.
End Swap.
