(** Nor does the table of errors look at positions: similar tokens have the same
    errors, up to positions. *)
From Verif Require Import Base F64 Token Ast SpecScan SpecPlace SpecGrammar SpecReject Relabel ParseFirst.

Definition alike (i j : list token) : Prop := map payload i = map payload j.
Lemma alike_cons t i j : alike (t :: i) j -> exists u j', j = u :: j' /\ payload t = payload u /\ alike i j'.
Proof. destruct j as [|u j]; [discriminate|]. intros H. injection H as H1 H2. exists u, j. repeat split; auto. unfold payload. congruence. Qed.
Lemma alike_nil j : alike nil j -> j = nil.
Proof. destruct j; [auto|discriminate]. Qed.
Lemma alike_sym i j : alike i j -> alike j i.
Proof. unfold alike. congruence. Qed.
Lemma payload_fields t u : payload t = payload u ->
  t_type t = t_type u /\ t_lexeme t = t_lexeme u /\ t_string t = t_string u /\ t_float t = t_float u.
Proof. intros H. injection H. auto. Qed.
Lemma alike_words i j : alike i j -> words i j.
Proof.
  revert j. induction i as [|t i IH]; intros j A.
  - apply alike_nil in A. subst. constructor.
  - apply alike_cons in A. destruct A as (u & j' & -> & P & A). constructor; [|now apply IH].
    apply payload_fields in P. destruct P as (? & ? & ? & ?). repeat split; auto.
Qed.
Lemma alike_ahead ks i j : alike i j -> ahead ks i = ahead ks j.
Proof.
  intros A. destruct i as [|t i]; [apply alike_nil in A; now subst|].
  apply alike_cons in A. destruct A as (u & j' & -> & P & A). apply payload_fields in P. cbn.
  now destruct P as (-> & _).
Qed.
Lemma alike_tl i j : alike i j -> alike (tl i) (tl j).
Proof.
  intros A. destruct i as [|t i]; [apply alike_nil in A; now subst|].
  apply alike_cons in A. destruct A as (u & j' & -> & P & A). exact A.
Qed.
Lemma alike_entry i j : alike i j -> entry_ahead i = entry_ahead j.
Proof. intros A. unfold entry_ahead. now rewrite (alike_ahead _ _ _ A), (alike_ahead _ _ _ (alike_tl _ _ A)). Qed.
Lemma alike_separator i j : alike i j -> separator_ahead i = separator_ahead j.
Proof.
  intros A. unfold separator_ahead.
  now rewrite !(alike_ahead _ _ _ A), (alike_entry _ _ (alike_tl _ _ A)), (alike_ahead _ _ _ (alike_tl _ _ A)).
Qed.
Lemma words_alike i j r s : alike i j -> words r s ->
  (exists p, i = p ++ r) -> (exists q, j = q ++ s) -> alike r s.
Proof.
  intros A W [p ->] [q ->]. unfold alike in *. rewrite !map_app in A.
  apply (f_equal (@rev _)) in A. rewrite !rev_app_distr in A.
  assert (L : length r = length s) by (clear - W; induction W; cbn; auto).
  assert (E : rev (map payload r) = rev (map payload s)).
  { assert (L' : length (rev (map payload r)) = length (rev (map payload s))) by (now rewrite !rev_length, !map_length).
    revert A L'. generalize (rev (map payload r)) (rev (map payload s)) (rev (map payload p)) (rev (map payload q)).
    clear. intros a b c d. revert b. induction a as [|x a IH]; intros [|y b] A L; try discriminate; auto.
    cbn in A. injection A as -> A. f_equal. apply IH; auto. }
  rewrite <- (rev_involutive (map payload r)), E. apply rev_involutive.
Qed.
Lemma alike_key t u : payload t = payload u -> key t = key u.
Proof. intros P. apply payload_fields in P. unfold key. now destruct P as (-> & -> & -> & _). Qed.
Lemma alike_error t u m : payload t = payload u -> same_message (error_at t m) (error_at u m).
Proof. intros P. apply payload_fields in P. destruct P as (_ & E & _). split; cbn; congruence. Qed.

(** Tables that say the same. *)
Inductive agree : list step -> list step -> Prop :=
| ag_nil : agree nil nil
| ag_skip st st' : agree st st' -> agree (Skip :: st) (Skip :: st')
| ag_need lv ks msg st st' : agree st st' -> agree (Need lv ks msg :: st) (Need lv ks msg :: st')
| ag_reject c c' st st' : same_message c c' -> agree st st' -> agree (Reject c :: st) (Reject c' :: st')
| ag_sub p st st' : agree st st' -> agree (Sub p :: st) (Sub p :: st')
| ag_last p st st' : agree st st' -> agree (Last p :: st) (Last p :: st')
| ag_target k k' st st' :
    (forall e e' r r', unplaced_expr e = unplaced_expr e' -> alike r r' -> agree (k e r) (k' e' r')) ->
    agree st st' -> agree (TargetThen k :: st) (TargetThen k' :: st')
| ag_look k k' st st' :
    (forall i i', alike i i' -> agree (k i) (k' i')) -> agree st st' ->
    agree (Look k :: st) (Look k' :: st').
Lemma agree_app a a' b b' : agree a a' -> agree b b' -> agree (a ++ b) (a' ++ b').
Proof. induction 1; intros; cbn; try constructor; auto. Qed.

Lemma assignable e e' : unplaced_expr e = unplaced_expr e' -> can_assign e = can_assign e'.
Proof. destruct e, e'; cbn; intros H; try discriminate H; auto. now injection H as -> _. Qed.

Ltac same_look :=
  repeat match goal with
  | A : alike ?i ?j |- context [ahead ?ks ?i] => rewrite (alike_ahead ks i j A)
  | A : alike ?i ?j |- context [entry_ahead ?i] => rewrite (alike_entry i j A)
  | A : alike ?i ?j |- context [separator_ahead ?i] => rewrite (alike_separator i j A)
  | A : alike ?i ?j |- context [ahead ?ks (tl ?i)] => rewrite (alike_ahead ks _ _ (alike_tl i j A))
  end.
Ltac agreed :=
  repeat first
    [ apply ag_nil
    | match goal with |- agree (List.app _ _) (List.app _ _) => apply agree_app end
    | match goal with |- agree (Look _ :: _) _ => apply ag_look; [intros ? ? ?; cbn beta; same_look|] end
    | match goal with |- agree (maybe _ :: _) _ => unfold maybe end
    | match goal with |- agree (unless _ _ :: _) _ => unfold unless end
    | match goal with |- agree (need _ _ :: _) _ => unfold need end
    | match goal with |- agree (wrong _ :: _) _ => unfold wrong end
    | match goal with |- agree (SpecReject.block _ :: _) _ => unfold SpecReject.block end
    | match goal with |- agree (opening _ _ _ :: _) _ => unfold opening end
    | match goal with |- agree (Skip :: _) _ => apply ag_skip end
    | match goal with |- agree (Need _ _ _ :: _) _ => apply ag_need end
    | match goal with |- agree (Reject _ :: _) _ => apply ag_reject end
    | match goal with |- agree (Sub _ :: _) _ => apply ag_sub end
    | match goal with |- agree (Last _ :: _) _ => apply ag_last end
    | match goal with |- agree (TargetThen _ :: _) _ => apply ag_target; [intros ? ? ? ? ? ?|] end
    | match goal with |- agree (if ?x then _ else _) (if ?x then _ else _) => destruct x eqn:? end
    | match goal with |- agree ((if ?x then _ else _) :: _) _ => destruct x eqn:? end
    | match goal with P : payload ?t = payload ?u |- same_message (error_at ?t _) _ => apply alike_error; exact P end
    | match goal with A : alike ?i ?j |- agree (match ?i with _ => _ end) (match ?j with _ => _ end) =>
        destruct i as [|? ?];
          [apply alike_nil in A; subst|
           let E := fresh "E" in
           pose proof A as E; apply alike_cons in E; destruct E as (? & ? & -> & ? & ?); same_look] end ].

Section Table.
Variable trailing : bool.
Lemma table_agree t u b p : payload t = payload u ->
  agree (steps_of trailing t b p) (steps_of trailing u b p).
Proof.
  intros PP. destruct p as [[]| | | | | | |]; cbn [steps_of]; agreed.
  - rewrite (assignable _ _ H). destruct (can_assign e'); agreed. split; reflexivity.
  - match goal with P : payload _ = payload _ |- agree (match operator _ (t_type t0) with _ => _ end) _ =>
      idtac end.
    match goal with P : payload t0 = payload _ |- _ => destruct (payload_fields _ _ P) as (-> & _) end.
    destruct (operator _ _); agreed.
  - match goal with P : payload t0 = payload _ |- _ => rewrite (alike_key _ _ P) end.
    destruct (existsb _ _); agreed. split; reflexivity.
Qed.

Lemma parses_alike b p i r j : alike i j -> parses trailing b p i r ->
  exists s, parses trailing b p j s /\ alike r s.
Proof.
  intros A H. pose proof (alike_words _ _ A) as W.
  assert (D : forall b N v, derives trailing b N i v r ->
    exists v' s, derives trailing b N j v' s /\ alike r s /\ unplaced_val v = unplaced_val v').
  { intros b' N v D. destruct (derives_words _ _ _ _ _ _ D j N W eq_refl) as (v' & s & D' & W' & E).
    exists v', s. repeat split; auto. eapply words_alike; eauto; eapply derives_suffix; eauto. }
  destruct p; cbn [parses] in *.
  - destruct H as (v & H). destruct (D _ _ _ H) as (v' & s & D' & A' & E). eauto.
  - destruct H as (l & v & H). destruct (D _ _ _ H) as (v' & s & D' & A' & E). eauto.
  - destruct H as (l & v & H). destruct (D _ _ _ H) as (v' & s & D' & A' & E). eauto.
  - destruct H as (l & v & H). destruct (D _ _ _ H) as (v' & s & D' & A' & E). eauto.
  - destruct H as (l & H & L). destruct (D _ _ _ H) as (v' & s & D' & A' & E). shape.
    exists s. split; auto. exists es. split; auto. erewrite <- (map_length _ es), <- E, map_length. exact L.
  - destruct H as (l & H & L). destruct (D _ _ _ H) as (v' & s & D' & A' & E). shape.
    exists s. split; auto. exists ps. split; auto. erewrite <- (map_length _ ps), <- E, map_length. exact L.
  - destruct H as (l & H & L). destruct (D _ _ _ H) as (v' & s & D' & A' & E). shape.
    exists s. split; auto. exists m. split; auto. now rewrite <- (keys_unplaced _ _ E).
  - destruct H as (v & H). destruct (D _ _ _ H) as (v' & s & D' & A' & E). eauto.
Qed.

Definition same_failure (f g : failure) : Prop :=
  same_message (f_cause f) (f_cause g) /\ alike (f_left f) (f_left g) /\ f_loop f = f_loop g.

Theorem rejects_alike t u b st i f : payload t = payload u -> rejects trailing t b st i f ->
  forall st' j, agree st st' -> alike i j ->
  exists g, rejects trailing u b st' j g /\ same_failure f g.
Proof.
  intros PP. induction 1; intros st' j G A; inversion G; subst; clear G;
    try (apply alike_cons in A; destruct A as (t' & j' & -> & P & A)).
  - match goal with G : agree st _ |- _ => destruct (IHrejects _ _ G A) as (g & R & S) end. exists g. split; auto. now constructor.
  - match goal with G : agree st _ |- _ => destruct (IHrejects _ _ G A) as (g & R & S) end. exists g. split; auto. constructor; auto.
    rewrite <- H. symmetry. cbn. now destruct (payload_fields _ _ P) as (-> & _).
  - eexists. split; [apply rj_missing|].
    + rewrite <- H. symmetry. cbn. now destruct (payload_fields _ _ P) as (-> & _).
    + repeat split; cbn; try apply payload_fields in P; try tauto. 
      * destruct P as (_ & -> & _). reflexivity.
      * unfold alike. cbn. f_equal; auto. unfold payload. destruct P as (-> & -> & -> & ->). reflexivity.
  - eexists. split; [constructor|]. repeat split; cbn; auto; match goal with S : same_message _ _ |- _ => apply S end.
  - destruct (parses_alike _ _ _ _ _ A H) as (s & H' & A').
    match goal with G : agree st _ |- _ => destruct (IHrejects _ _ G A') as (g & R & S) end. exists g. split; auto. eapply rj_sub; eauto.
  - destruct (IHrejects _ _ (table_agree _ _ _ _ PP) A) as (g & R & S). exists g. split; auto.
    now apply rj_sub_bad.
  - destruct (IHrejects _ _ (table_agree _ _ _ _ PP) A) as (g & R & S). exists g. split; auto.
    now apply rj_last.
  - destruct (derives_words _ _ _ _ _ _ H j Target (alike_words _ _ A) eq_refl) as (v' & s & D & W & E).
    shape.
    assert (A' : alike r s) by (eapply words_alike; eauto; eapply derives_suffix; eauto).
    destruct (IHrejects (k' e0 s ++ st'0) s) as (g & R & S); auto using agree_app.
    exists g. split; auto. eapply rj_target; eauto.
  - destruct (IHrejects _ _ (table_agree _ _ _ _ PP) A) as (g & R & S). exists g. split; auto.
    now apply rj_target_bad.
  - destruct (IHrejects (k' j ++ st'0) j) as (g & R & S); auto using agree_app.
    exists g. split; auto. now apply rj_look.
Qed.
End Table.
