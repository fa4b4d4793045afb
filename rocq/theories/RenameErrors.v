(** The table of errors under change of names: tokens with other names have errors with the same messages. *)
From Verif Require Import Base F64 Token Ast SpecPlace SpecGrammar SpecReject SpecRename SpecRenameText ParseFirst Relabel RenameWords.

Section Rename.
Variable r : string -> string.
Hypothesis RA : renaming_all r.
Notation new_word := (new_word r).
Notation new_words := (new_words r).
Notation ren := (renamed_expr r r).

(** Strings have values. *)
Definition has_value (t : token) : Prop := t_type t = TString -> t_string t <> None.
Definition fit (i j : list token) : Prop := new_words i j /\ Forall has_value i.
Lemma fit_cons t i j : fit (t :: i) j -> exists u j', j = u :: j' /\ new_word t u /\ has_value t /\ fit i j'.
Proof.
  intros [W F]. apply new_cons in W. destruct W as (u & j' & -> & A & W). inversion F; subst.
  exists u, j'. repeat split; auto; apply A.
Qed.
Lemma fit_nil j : fit nil j -> j = nil.
Proof. intros [W _]. inversion W. reflexivity. Qed.
Lemma fit_ahead ks i j : fit i j -> ahead ks i = ahead ks j.
Proof. intros [W _]. destruct W as [|t t' ? ? (A & _)]; cbn; auto. now rewrite A. Qed.
Lemma fit_tl i j : fit i j -> fit (tl i) (tl j).
Proof.
  intros A. destruct i as [|t i]; [apply fit_nil in A; subst; split; constructor|].
  apply fit_cons in A. destruct A as (u & j' & -> & P & V & A). exact A.
Qed.
Lemma fit_entry i j : fit i j -> entry_ahead i = entry_ahead j.
Proof. intros A. unfold entry_ahead. now rewrite (fit_ahead _ _ _ A), (fit_ahead _ _ _ (fit_tl _ _ A)). Qed.
Lemma fit_separator i j : fit i j -> separator_ahead i = separator_ahead j.
Proof.
  intros A. unfold separator_ahead.
  now rewrite !(fit_ahead _ _ _ A), (fit_entry _ _ (fit_tl _ _ A)), (fit_ahead _ _ _ (fit_tl _ _ A)).
Qed.
Lemma fit_suffix i j z s : fit i j -> new_words z s -> (exists p, i = p ++ z) -> fit z s.
Proof. intros [_ F] W [p ->]. split; auto. apply Forall_app in F. apply F. Qed.
Lemma fit_key t u i : new_word t u -> has_value t -> entry_ahead (t :: i) = true -> key u = r (key t).
Proof.
  intros (A & B & _ & D) V E. unfold entry_ahead in E. apply andb_true_iff in E. destruct E as [E _].
  cbn in E. unfold key. rewrite <- A, <- B. destruct (t_type t) eqn:T; try discriminate E.
  - symmetry. apply D. now left.
  - destruct (t_string t) as [x|] eqn:X; [reflexivity|]. destruct (V T X).
Qed.

(** Phrases that mean the same. *)
Definition renamed_phrase (p : phrase) : phrase :=
  match p with Of N => Of (renamed_sym r N) | EntriesAfter seen => EntriesAfter (map r seen) | p => p end.
Inductive agree : list step -> list step -> Prop :=
| ag_nil : agree nil nil
| ag_skip st st' : agree st st' -> agree (Skip :: st) (Skip :: st')
| ag_need lv ks msg st st' : agree st st' -> agree (Need lv ks msg :: st) (Need lv ks msg :: st')
| ag_reject c c' st st' : c_message c = c_message c' -> agree st st' -> agree (Reject c :: st) (Reject c' :: st')
| ag_sub p p' st st' : p' = renamed_phrase p -> agree st st' -> agree (Sub p :: st) (Sub p' :: st')
| ag_last p p' st st' : p' = renamed_phrase p -> agree st st' -> agree (Last p :: st) (Last p' :: st')
| ag_target k k' st st' :
    (forall e e' z z', unplaced_expr (ren e) = unplaced_expr e' -> fit z z' -> agree (k e z) (k' e' z')) ->
    agree st st' -> agree (TargetThen k :: st) (TargetThen k' :: st')
| ag_look k k' st st' :
    (forall i i', fit i i' -> agree (k i) (k' i')) -> agree st st' ->
    agree (Look k :: st) (Look k' :: st').
Lemma agree_app a a' b b' : agree a a' -> agree b b' -> agree (a ++ b) (a' ++ b').
Proof. induction 1; intros; cbn; try constructor; auto. Qed.

Lemma assignable_new e e' : unplaced_expr (ren e) = unplaced_expr e' -> can_assign e = can_assign e'.
Proof.
  destruct e, e'; cbn; intros H; try discriminate H; auto. injection H as <- _.
  now rewrite (eqb_kept r RA _ _ (this_kept r RA)).
Qed.
Lemma seen_new x seen : existsb (String.eqb (r x)) (map r seen) = existsb (String.eqb x) seen.
Proof.
  induction seen as [|y seen IH]; cbn; auto. rewrite IH. f_equal.
  destruct (String.eqb_spec x y) as [E|N], (String.eqb_spec (r x) (r y)) as [E'|N']; auto.
  - destruct N'. congruence.
  - destruct N. now apply RA.
Qed.

Ltac same_look :=
  repeat match goal with
  | A : fit ?i ?j |- context [ahead ?ks ?i] => rewrite (fit_ahead ks i j A)
  | A : fit ?i ?j |- context [entry_ahead ?i] => rewrite (fit_entry i j A)
  | A : fit ?i ?j |- context [separator_ahead ?i] => rewrite (fit_separator i j A)
  | A : fit ?i ?j |- context [ahead ?ks (tl ?i)] => rewrite (fit_ahead ks _ _ (fit_tl i j A))
  end.
Ltac agreed :=
  repeat first
    [ apply ag_nil
    | match goal with |- agree (List.app _ _) (List.app _ _) => apply agree_app end
    | match goal with |- agree (Look _ :: _) _ => apply ag_look; [intros ? ? ?; cbn beta; same_look|] end
    | match goal with |- agree (maybe _ :: _) _ => unfold maybe end
    | match goal with |- agree (unless _ _ :: _) _ => unfold unless end
    | match goal with |- agree (need _ _ :: _) _ => unfold need end
    | match goal with |- agree (wrong _ :: _) _ => unfold wrong end
    | match goal with |- agree (SpecReject.block _ :: _) _ => unfold SpecReject.block end
    | match goal with |- agree (opening _ _ _ :: _) _ => unfold opening end
    | match goal with |- agree (Skip :: _) _ => apply ag_skip end
    | match goal with |- agree (Need _ _ _ :: _) _ => apply ag_need end
    | match goal with |- agree (Reject _ :: _) _ => apply ag_reject; [reflexivity|] end
    | match goal with |- agree (Sub _ :: _) _ => apply ag_sub; [try reflexivity|] end
    | match goal with |- agree (Last _ :: _) _ => apply ag_last; [try reflexivity|] end
    | match goal with |- agree (TargetThen _ :: _) _ => apply ag_target; [intros ? ? ? ? ? ?|] end
    | match goal with |- agree (if ?x then _ else _) (if ?x then _ else _) => destruct x eqn:? end
    | match goal with |- agree ((if ?x then _ else _) :: _) _ => destruct x eqn:? end
    | match goal with A : fit ?i ?j |- agree (match ?i with _ => _ end) (match ?j with _ => _ end) =>
        destruct i as [|? ?];
          [apply fit_nil in A; subst|
           let E := fresh "E" in
           pose proof A as E; apply fit_cons in E; destruct E as (? & ? & -> & ? & ? & ?); same_look] end ].

Section Table.
Variable trailing : bool.
Lemma table_renamed t u b p : agree (steps_of trailing t b p) (steps_of trailing u b (renamed_phrase p)).
Proof.
  destruct p as [[]| | | | | | |]; cbn [steps_of renamed_phrase renamed_sym]; agreed.
  - rewrite (assignable_new _ _ H). destruct (can_assign e'); agreed.
  - match goal with P : new_word t0 _ |- _ => destruct P as (-> & _) end.
    destruct (operator _ _); agreed.
  - assert (K : key x = r (key t0)) by (apply (fit_key t0 x i); auto; now rewrite (fit_entry _ _ H)).
    rewrite K, seen_new. destruct (existsb _ _); agreed.
Qed.

Ltac shape :=
  match goal with
  | E : unplaced_val (renamed_val _ (_ _)) = unplaced_val ?v |- _ =>
    destruct v; cbn in E; try discriminate E; injection E as E
  end.
Lemma parses_renamed b p i z j : fit i j -> parses trailing b p i z ->
  exists s, parses trailing b (renamed_phrase p) j s /\ fit z s.
Proof.
  intros A H.
  assert (D : forall b N v N', derives trailing b N i v z -> unplaced_sym (renamed_sym r N) = unplaced_sym N' ->
    exists v' s, derives trailing b N' j v' s /\ fit z s /\ unplaced_val (renamed_val r v) = unplaced_val v').
  { intros b' N v N' D EN. destruct (derives_renamed r RA _ _ _ _ _ _ D j N' (proj1 A) EN) as (v' & s & D' & W' & E).
    exists v', s. split; auto. split; auto. eapply fit_suffix; eauto. eapply derives_suffix; eauto. }
  destruct p; cbn [parses renamed_phrase] in *.
  - destruct H as (v & H). destruct (D _ _ _ (renamed_sym r N) H eq_refl) as (v' & s & D' & A' & E). eauto.
  - destruct H as (l & v & H). destruct (D _ _ _ (Function l) H eq_refl) as (v' & s & D' & A' & E). eauto.
  - destruct H as (l & v & H). destruct (D _ _ _ _ H eq_refl) as (v' & s & D' & A' & E). eauto.
  - destruct H as (l & v & H). destruct (D _ _ _ _ H eq_refl) as (v' & s & D' & A' & E). eauto.
  - destruct H as (l & H & L). destruct (D _ _ _ Arguments H eq_refl) as (v' & s & D' & A' & E). shape.
    exists s. split; auto. exists es. split; auto. erewrite <- (map_length _ es), <- E, !map_length. exact L.
  - destruct H as (l & H & L). destruct (D _ _ _ Parameters H eq_refl) as (v' & s & D' & A' & E). shape.
    exists s. split; auto. exists ps. split; auto. erewrite <- (map_length _ ps), <- E, !map_length. exact L.
  - destruct H as (l & H & L & S). destruct (D _ _ _ Entries H eq_refl) as (v' & s & D' & A' & E). shape.
    exists s. split; auto. exists m. split; auto. rewrite <- (keys_new r _ _ E). split; [now apply nodup_new|].
    intros k I I'. apply in_map_iff in I. destruct I as (x & <- & I). apply in_map_iff in I'. destruct I' as (y & EQ & I').
    apply RA in EQ. subst. exact (S x I I').
  - destruct H as (v & H). destruct (D _ _ _ Branch H eq_refl) as (v' & s & D' & A' & E). eauto.
Qed.

Definition same_failure (f g : failure) : Prop :=
  c_message (f_cause f) = c_message (f_cause g) /\ fit (f_left f) (f_left g) /\ f_loop f = f_loop g.
Lemma inside_renamed b p : inside b (renamed_phrase p) = inside b p.
Proof. destruct p; reflexivity. Qed.

Theorem rejects_renamed t u b st i f : rejects trailing t b st i f ->
  forall st' j, agree st st' -> fit i j ->
  exists g, rejects trailing u b st' j g /\ same_failure f g.
Proof.
  induction 1; intros st' j G A; inversion G; subst; clear G.
  1-3: pose proof A as B; apply fit_cons in A; destruct A as (t' & j' & -> & P & V & A).
  - match goal with G : agree st _ |- _ => destruct (IHrejects _ _ G A) as (g & R & S) end. exists g. split; auto. now constructor.
  - match goal with G : agree st _ |- _ => destruct (IHrejects _ _ G A) as (g & R & S) end. exists g. split; auto. constructor; auto.
    rewrite <- H. symmetry. now apply fit_ahead.
  - eexists. split; [apply rj_missing|].
    + rewrite <- H. symmetry. now apply fit_ahead.
    + split; [reflexivity|]. split; [exact B|reflexivity].
  - eexists. split; [constructor|]. split; [assumption|]. split; [exact A|reflexivity].
  - destruct (parses_renamed _ _ _ _ _ A H) as (s & H' & A').
    match goal with G : agree st _ |- _ => destruct (IHrejects _ _ G A') as (g & R & S) end. exists g. split; auto. eapply rj_sub; eauto.
  - destruct (IHrejects _ _ (table_renamed t u _ _) A) as (g & R & S). exists g. split; auto.
    apply rj_sub_bad. now rewrite inside_renamed.
  - destruct (IHrejects _ _ (table_renamed t u _ _) A) as (g & R & S). exists g. split; auto.
    apply rj_last. now rewrite inside_renamed.
  - destruct (derives_renamed r RA _ _ _ _ _ _ H j Target (proj1 A) eq_refl) as (v' & s & D & W & E).
    shape.
    assert (A' : fit r0 s) by (eapply fit_suffix; eauto; eapply derives_suffix; eauto).
    destruct (IHrejects (k' e0 s ++ st'0) s) as (g & R & S); auto using agree_app.
    exists g. split; auto. eapply rj_target; eauto.
  - destruct (IHrejects _ _ (table_renamed t u b Target) A) as (g & R & S). exists g. split; auto.
    now apply rj_target_bad.
  - destruct (IHrejects (k' j ++ st'0) j) as (g & R & S); auto using agree_app.
    exists g. split; auto. now apply rj_look.
Qed.

Lemma recovers_renamed i z : recovers i z -> forall j, fit i j -> exists s, recovers j s /\ fit z s.
Proof.
  induction 1; intros j A.
  - exists j. split; auto. constructor. eapply new_starts; [apply A|assumption].
  - apply fit_cons in A. destruct A as (u & j' & -> & P & V & A). exists j'. split; auto.
    apply rv_after. now destruct P as (<- & _).
  - apply fit_cons in A. destruct A as (u & j' & -> & P & V & A).
    destruct (IHrecovers _ A) as (s & R & A'). exists s. split; auto. apply rv_skip; auto.
    now destruct P as (<- & _).
Qed.
Lemma reports_renamed t u b i cs : reports trailing t b i cs ->
  forall j, fit i j -> exists cs', reports trailing u b j cs' /\ map c_message cs = map c_message cs'.
Proof.
  induction 1; intros j A.
  - exists nil. split; [|reflexivity]. constructor. eapply new_starts; [apply A|assumption].
  - destruct (derives_renamed r RA _ _ _ _ _ _ H j Declaration (proj1 A) eq_refl) as (v' & s & D & W & E).
    shape. assert (A' : fit r0 s) by (eapply fit_suffix; eauto; eapply derives_suffix; eauto).
    destruct (IHreports _ A') as (cs' & R & M). exists cs'. split; auto. eapply rp_declaration; eauto.
  - destruct (rejects_renamed _ u _ _ _ _ H0 _ j (table_renamed t u _ Declaration) A) as (g & G & C & L & B).
    destruct (recovers_renamed _ _ H1 _ L) as (s & R & A').
    destruct (IHreports _ A') as (cs' & RR & M). exists (f_cause g :: cs'). split.
    + eapply rp_error; eauto.
      * eapply new_not; [apply A|assumption].
      * now rewrite <- B.
    + cbn. congruence.
Qed.
End Table.
End Rename.
