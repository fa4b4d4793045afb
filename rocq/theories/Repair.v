(** Two runs of the parser on tokens that begin alike: up to a keyword that both have they do the same. *)
From Verif Require Import Base F64 Token Ast Scanner Parser.
From Coq Require Import Lia.

Lemma same_type a b : tt_eqb a b = true -> a = b.
Proof. destruct a; destruct b; (reflexivity || discriminate). Qed.

Section Two.
Variables X S1 S2 : list token.
Hypothesis NoEof : Forall (fun t => t_type t <> Eof) X.
(** The keyword is the token before [p]. *)
Variable p : nat.
Variable kw : token.
Hypothesis Key : nth_error X (p - 1) = Some kw.
Hypothesis Sync : is_sync_type (t_type kw) = true.
Hypothesis Pos : 0 < p.
Variables trailing oc : bool.
Notation t1 := (X ++ S1).
Notation t2 := (X ++ S2).

Lemma inside : p <= length X.
Proof. assert (p - 1 < length X) by (apply nth_error_Some; congruence). lia. Qed.

(** ** Agreement *)
Definition sim {A} (f g : P A) : Prop := forall s,
  match f s with
  | POk a s1 => cur s <= cur s1 /\ (cur s1 < p -> g s = POk a s1 \/ g s = PFuel)
  | PErr c s1 => cur s <= cur s1 /\ (cur s1 < p -> g s = PErr c s1 \/ g s = PFuel)
  | PPanic _ | PFuel => True
  end.
Lemma sim_ret {A} (a : A) : sim (pret a) (pret a).
Proof. intros s. cbn. auto. Qed.
Lemma sim_fail {A} c : sim (@pfail A c) (pfail c).
Proof. intros s. cbn. auto. Qed.
Lemma sim_panic {A} w (g : P A) : sim (ppanic w) g.
Proof. exact (fun s => I). Qed.
Lemma sim_fuel {A} (g : P A) : sim pfuel g.
Proof. exact (fun s => I). Qed.
Lemma sim_bind {A B} (f g : P A) (h k : A -> P B) : sim f g -> (forall a, sim (h a) (k a)) -> sim (pbind f h) (pbind g k).
Proof.
  intros F H s. specialize (F s). unfold pbind. destruct (f s) as [a s1|c s1|w|]; auto.
  - destruct F as [L F]. specialize (H a s1). destruct (h a s1) as [b s2|c s2|w|]; auto; destruct H as [L' H].
    + split; [lia|]. intros C. destruct F as [->| ->]; auto; lia.
    + split; [lia|]. intros C. destruct F as [->| ->]; auto; lia.
  - destruct F as [L F]. split; auto. intros C. destruct (F C) as [->| ->]; auto.
Qed.
Lemma sim_gets {A} (f g : pstate -> A) : (forall s, cur s < p -> f s = g s) -> sim (gets f) (gets g).
Proof. intros H s. cbn. split; auto. intros C. left. unfold gets. now rewrite H. Qed.
Lemma sim_if {A} (b : bool) (f g f' g' : P A) : sim f f' -> sim g g' -> sim (if b then f else g) (if b then f' else g').
Proof. now destruct b. Qed.

(** ** Looking *)
Lemma nth_same i : i < p -> nth_error t1 i = nth_error t2 i.
Proof. intros L. pose proof inside. rewrite !nth_error_app1 by lia. reflexivity. Qed.
Lemma nth_here i : i < p -> exists t, nth_error t1 i = Some t /\ t_type t <> Eof.
Proof.
  intros L. pose proof inside. rewrite nth_error_app1 by lia. destruct (nth_error X i) as [t|] eqn:E.
  - exists t. split; auto. rewrite Forall_forall in NoEof. apply NoEof. eapply nth_error_In; eauto.
  - apply nth_error_None in E. lia.
Qed.
Lemma peek_same s : cur s < p -> peek t1 s = peek t2 s.
Proof. apply nth_same. Qed.
Lemma end_same s : cur s < p -> is_at_end t1 s = is_at_end t2 s.
Proof. intros L. unfold is_at_end. now rewrite peek_same. Qed.
Lemma not_end s : cur s < p -> is_at_end t1 s = false.
Proof.
  intros L. unfold is_at_end, peek. destruct (nth_here _ L) as (t & -> & N). destruct (t_type t); auto. now destruct N.
Qed.
Lemma check_same k s : cur s < p -> check_st t1 k s = check_st t2 k s.
Proof. intros L. unfold check_st. now rewrite end_same, peek_same. Qed.
Lemma check_any_same ks s : cur s < p -> check_any_of_st t1 ks s = check_any_of_st t2 ks s.
Proof. intros L. unfold check_any_of_st. now rewrite end_same, peek_same. Qed.
Lemma check_next_same k s : S (cur s) < p -> check_next_st t1 k s = check_next_st t2 k s.
Proof. intros L. unfold check_next_st, peek_next. rewrite end_same, nth_same by lia. reflexivity. Qed.
Lemma check_next_any_same ks s : S (cur s) < p -> check_next_any_of_st t1 ks s = check_next_any_of_st t2 ks s.
Proof. intros L. unfold check_next_any_of_st, peek_next. rewrite end_same, nth_same by lia. reflexivity. Qed.
Lemma check_next_next_same k s : S (S (cur s)) < p -> check_next_next_st t1 k s = check_next_next_st t2 k s.
Proof. intros L. unfold check_next_next_st, peek_next_next. rewrite end_same, nth_same by lia. reflexivity. Qed.
(** A token before the keyword that is no keyword is followed by another before [p]. *)
Lemma room i t : i < p -> nth_error t1 i = Some t -> is_sync_type (t_type t) = false -> S i < p.
Proof.
  intros L E N. destruct (Nat.eq_dec (S i) p) as [Q|]; [|lia]. exfalso. pose proof inside.
  rewrite nth_error_app1 in E by lia. replace i with (p - 1) in E by lia. congruence.
Qed.
Lemma check_room k s : cur s < p -> check_st t1 k s = true -> is_sync_type k = false -> S (cur s) < p.
Proof.
  intros L C N. unfold check_st, peek in C. destruct (nth_here _ L) as (t & E & _). rewrite E in C. cbn in C.
  apply andb_true_iff in C. destruct C as [_ C]. apply (room _ _ L E). now rewrite (same_type _ _ C).
Qed.
Lemma check_any_room ks s : cur s < p -> check_any_of_st t1 ks s = true -> forallb (fun k => negb (is_sync_type k)) ks = true ->
  S (cur s) < p.
Proof.
  intros L C N. unfold check_any_of_st, peek in C. destruct (nth_here _ L) as (t & E & _). rewrite E in C. cbn in C.
  apply andb_true_iff in C. destruct C as [_ C]. unfold tt_mem in C. apply existsb_exists in C. destruct C as (k & I & K).
  rewrite forallb_forall in N. specialize (N k I). apply (room _ _ L E). rewrite (same_type _ _ K). now apply negb_true_iff.
Qed.
Lemma next_any_room ks s : S (cur s) < p -> check_next_any_of_st t1 ks s = true ->
  forallb (fun k => negb (is_sync_type k)) ks = true -> S (S (cur s)) < p.
Proof.
  intros L C N. unfold check_next_any_of_st, peek_next in C. destruct (nth_here _ L) as (t & E & _).
  replace (cur s + 1) with (S (cur s)) in C by lia. rewrite E in C. cbn in C.
  apply andb_true_iff in C. destruct C as [_ C]. unfold tt_mem in C. apply existsb_exists in C. destruct C as (k & I & K).
  rewrite forallb_forall in N. specialize (N k I). apply (room _ _ L E). rewrite (same_type _ _ K). now apply negb_true_iff.
Qed.
Lemma entry_same s : cur s < p ->
  check_any_of_st t1 [Identifier; TString] s && check_next_st t1 Colon s =
  check_any_of_st t2 [Identifier; TString] s && check_next_st t2 Colon s.
Proof.
  intros L. rewrite <- check_any_same by exact L. destruct (check_any_of_st t1 _ s) eqn:E; auto. cbn [andb].
  apply check_next_same. eapply check_any_room; eauto.
Qed.
Lemma more_same s : cur s < p ->
  (check_st t1 Comma s || check_st t1 Terminator s &&
    (check_next_any_of_st t1 [Identifier; TString] s && check_next_next_st t1 Colon s || check_next_st t1 RightBrace s)) =
  (check_st t2 Comma s || check_st t2 Terminator s &&
    (check_next_any_of_st t2 [Identifier; TString] s && check_next_next_st t2 Colon s || check_next_st t2 RightBrace s)).
Proof.
  intros L. rewrite <- !check_same by exact L. destruct (check_st t1 Comma s); auto. cbn [orb].
  destruct (check_st t1 Terminator s) eqn:E; auto. cbn [andb].
  assert (R := check_room _ _ L E eq_refl). rewrite <- check_next_any_same, <- check_next_same by exact R.
  destruct (check_next_any_of_st t1 [Identifier; TString] s) eqn:E2; auto. cbn [andb].
  rewrite check_next_next_same; auto. eapply next_any_room; eauto.
Qed.
Lemma loops_same s : cur s < p -> loops s = loops s. Proof. reflexivity. Qed.

(** ** The functions *)
Lemma sim_advance : sim (advance t1) (advance t2).
Proof.
  intros s. unfold advance, advance_st. split; [destruct (is_at_end t1 s); cbn; lia|]. intros C. left.
  destruct (Nat.lt_ge_cases (cur s) p) as [L|L].
  - now rewrite <- end_same.
  - destruct (is_at_end t1 s); cbn in C; lia.
Qed.
Lemma sim_check k : sim (check t1 k) (check t2 k).
Proof. apply sim_gets. intros. now apply check_same. Qed.
Lemma sim_previous : sim (previous t1 oc) (previous t2 oc).
Proof.
  intros s. unfold previous. destruct (cur s) as [|n] eqn:E; [destruct oc; auto; rewrite E; auto|].
  split; [lia|]. intros C. left. rewrite nth_same by lia. reflexivity.
Qed.
Lemma sim_peek : sim (gets (peek t1)) (gets (peek t2)).
Proof. apply sim_gets. apply peek_same. Qed.

(** One step of a proof that two parsers agree, by the form of the first. *)
Ltac sim_leaf := fail.
Ltac sim_step :=
  lazymatch goal with
  | |- sim (pret _) _ => apply sim_ret
  | |- sim (pfail _) _ => apply sim_fail
  | |- sim (ppanic _) _ => apply sim_panic
  | |- sim pfuel _ => apply sim_fuel
  | |- sim (advance _) _ => apply sim_advance
  | |- sim (check _ _) _ => apply sim_check
  | |- sim (previous _ _) _ => apply sim_previous
  | |- sim (gets (peek _)) _ => apply sim_peek
  | |- sim (gets loops) _ => apply sim_gets; reflexivity
  | |- sim (gets _) (gets _) => apply sim_gets; intros; first
      [ apply check_same; assumption | apply check_any_same; assumption | apply entry_same; assumption | apply more_same; assumption
      | rewrite <- ?check_same, <- ?end_same by assumption; reflexivity ]
  | |- sim (pbind _ _) (pbind _ _) => apply sim_bind; [|intros ?]
  | |- sim (if ?b then _ else _) (if ?b then _ else _) => destruct b
  | |- sim (match ?x with _ => _ end) (match ?x with _ => _ end) => destruct x
  | |- _ => sim_leaf
  end.
Ltac sims := repeat (sim_step || (progress cbv beta zeta)).

Lemma sim_match_token k : sim (match_token t1 k) (match_token t2 k). Proof. unfold match_token. sims. Qed.
Lemma sim_matches ks : sim (matches t1 ks) (matches t2 ks).
Proof. unfold matches. apply sim_bind; [|intros; sims]. apply sim_gets. intros. now rewrite <- peek_same. Qed.
Lemma sim_previous_loc : sim (previous_source_loc t1 oc) (previous_source_loc t2 oc). Proof. unfold previous_source_loc. sims. Qed.
Lemma sim_peek_loc : sim (peek_source_loc t1 oc) (peek_source_loc t2 oc). Proof. unfold peek_source_loc. sims. Qed.
Lemma sim_error_last {A} m : sim (@error_from_last t1 oc A m) (@error_from_last t2 oc A m).
Proof. unfold error_from_last. apply sim_bind; [apply sim_previous|intros o]. apply sim_bind; [apply sim_previous_loc|intros; sims]. Qed.
Lemma sim_error_peek {A} m : sim (@error_from_peek t1 oc A m) (@error_from_peek t2 oc A m).
Proof. unfold error_from_peek. apply sim_bind; [apply sim_peek|intros o]. apply sim_bind; [apply sim_peek_loc|intros; sims]. Qed.
Ltac sim_leaf1 :=
  lazymatch goal with
  | |- sim (match_token _ _) _ => apply sim_match_token
  | |- sim (matches _ _) _ => apply sim_matches
  | |- sim (peek_source_loc _ _) _ => apply sim_peek_loc
  | |- sim (error_from_last _ _ _) _ => apply sim_error_last
  | |- sim (error_from_peek _ _ _) _ => apply sim_error_peek
  end.
Ltac sim_leaf ::= sim_leaf1.
Lemma sim_consume_any ks m : sim (consume_any_of t1 oc ks m) (consume_any_of t2 oc ks m).
Proof. unfold consume_any_of. sims. Qed.
Lemma sim_consume k m : sim (consume t1 oc k m) (consume t2 oc k m).
Proof. apply sim_consume_any. Qed.
Lemma sim_identifier m : sim (consume_identifier t1 oc m) (consume_identifier t2 oc m).
Proof. unfold consume_identifier. sims. Qed.
Ltac sim_leaf2 :=
  lazymatch goal with
  | |- sim (consume_any_of _ _ _ _) _ => apply sim_consume_any
  | |- sim (consume _ _ _ _) _ => apply sim_consume
  | |- sim (consume_identifier _ _ _) _ => apply sim_identifier
  | |- _ => sim_leaf1
  end.
Ltac sim_leaf ::= sim_leaf2.
Lemma sim_begin m : sim (consume_begin_block t1 oc m) (consume_begin_block t2 oc m).
Proof. unfold consume_begin_block. sims. Qed.
Lemma sim_end k m : sim (consume_end_block t1 oc k m) (consume_end_block t2 oc k m).
Proof. unfold consume_end_block. sims. Qed.
Ltac sim_leaf3 :=
  lazymatch goal with
  | |- sim (consume_begin_block _ _ _) _ => apply sim_begin
  | |- sim (consume_end_block _ _ _ _) _ => apply sim_end
  | |- _ => sim_leaf2
  end.
Ltac sim_leaf ::= sim_leaf3.

(** ** Loops *)
(** They may run on different fuel. *)
Definition mono {A} (f : P A) : Prop := forall s, match f s with POk _ s1 | PErr _ s1 => cur s <= cur s1 | _ => True end.
Lemma sim_mono {A} (f g : P A) : sim f g -> mono f.
Proof. intros H s. specialize (H s). destruct (f s); tauto. Qed.
Lemma mono_sim {A} (f : P A) : mono f -> sim f pfuel.
Proof. intros H s. specialize (H s). destruct (f s); auto. Qed.
Lemma mono_bind {A B} (f : P A) (h : A -> P B) : mono f -> (forall a, mono (h a)) -> mono (pbind f h).
Proof.
  intros F H s. specialize (F s). unfold pbind. destruct (f s) as [a u|c u|w|]; auto.
  specialize (H a u). destruct (h a u); auto; lia.
Qed.
Lemma mono_gets {A} (f : pstate -> A) : mono (gets f). Proof. intros s. cbn. auto. Qed.
Lemma mono_ret {A} (a : A) : mono (pret a). Proof. intros s. cbn. auto. Qed.
Lemma mono_fail {A} c : mono (@pfail A c). Proof. intros s. cbn. auto. Qed.
Lemma mono_panic {A} w : mono (@ppanic A w). Proof. exact (fun s => I). Qed.
Lemma mono_fuel {A} : mono (@pfuel A). Proof. exact (fun s => I). Qed.

Section Knot.
Variables e1 e2 : P expr.
Variables s1 s2 d1 d2 : P stmt.
Hypothesis E : sim e1 e2.
Hypothesis Sm : sim s1 s2.
Hypothesis D : sim d1 d2.

(** What is known about a part carries over to its state alone. *)
Ltac mono_leaf := fail.
Ltac mono_step :=
  lazymatch goal with
  | |- mono (gets _) => apply mono_gets
  | |- mono (check _ _) => apply mono_gets
  | |- mono (pret _) => apply mono_ret
  | |- mono (pfail _) => apply mono_fail
  | |- mono (ppanic _) => apply mono_panic
  | |- mono pfuel => apply mono_fuel
  | |- mono (pbind _ _) => apply mono_bind; [|intros ?]
  | |- mono (if ?b then _ else _) => destruct b
  | |- mono (match ?x with _ => _ end) => destruct x
  | |- mono (advance _) => exact (sim_mono _ _ sim_advance)
  | |- mono (match_token _ _) => exact (sim_mono _ _ (sim_match_token _))
  | |- mono (matches _ _) => exact (sim_mono _ _ (sim_matches _))
  | |- mono (consume_any_of _ _ _ _) => exact (sim_mono _ _ (sim_consume_any _ _))
  | |- mono (consume _ _ _ _) => exact (sim_mono _ _ (sim_consume _ _))
  | |- mono (consume_identifier _ _ _) => exact (sim_mono _ _ (sim_identifier _))
  | |- mono (error_from_peek _ _ _) => exact (sim_mono _ _ (sim_error_peek _))
  | |- mono (error_from_last _ _ _) => exact (sim_mono _ _ (sim_error_last _))
  | |- mono (peek_source_loc _ _) => exact (sim_mono _ _ sim_peek_loc)
  | |- mono (consume_begin_block _ _ _) => exact (sim_mono _ _ (sim_begin _))
  | |- mono (consume_end_block _ _ _ _) => exact (sim_mono _ _ (sim_end _ _))
  | |- _ => mono_leaf
  end.
Ltac monos := repeat (mono_step || (progress cbv beta zeta)).
Ltac mono_leaf1 :=
  match goal with
  | H : sim ?f _ |- mono ?f => exact (sim_mono _ _ H)
  | H : forall _ : nat, sim _ _ |- mono _ => exact (sim_mono _ _ (H 0))
  | H : forall _ _, sim _ _ |- mono _ => exact (sim_mono _ _ (H 0 _))
  | H : forall _ _ _, sim _ _ |- mono _ => exact (sim_mono _ _ (H 0 _ _))
  end.
Ltac mono_leaf ::= mono_leaf1.
Ltac sim_leaf4 :=
  first [ match goal with
    | H : sim ?f _ |- sim ?f _ => exact H
    | H : forall _, sim _ _ |- _ => apply H
    | H : forall _ _, sim _ _ |- _ => apply H
    | H : forall _ _ _, sim _ _ |- _ => apply H
    | |- sim _ pfuel => apply mono_sim; solve [monos]
    end | sim_leaf3 ].
Ltac sim_leaf ::= sim_leaf4.

Lemma sim_block n : forall n' k acc, sim (block_loop t1 d1 n k acc) (block_loop t2 d2 n' k acc).
Proof. induction n as [|n IH]; intros [|n'] k acc; cbn [block_loop]; sims. Qed.
Lemma sim_finish_block k : sim (finish_block t1 oc d1 k) (finish_block t2 oc d2 k).
Proof. unfold finish_block. pose proof (sim_block (loop_fuel t1)). sims. Qed.
Lemma sim_param n : forall n' acc, sim (param_loop t1 oc n acc) (param_loop t2 oc n' acc).
Proof. induction n as [|n IH]; intros [|n'] acc; cbn [param_loop]; sims. Qed.
Ltac sim_leaf5 :=
  lazymatch goal with
  | |- sim (finish_block _ _ _ _) _ => apply sim_finish_block
  | |- sim (param_loop _ _ _ _) _ => apply sim_param
  | |- _ => sim_leaf4
  end.
Ltac sim_leaf ::= sim_leaf5.
Lemma sim_function l : sim (function_definition t1 oc d1 l) (function_definition t2 oc d2 l).
Proof. unfold function_definition. sims. Qed.
Lemma sim_map n : forall n' m, sim (literal_map_loop t1 oc e1 n m) (literal_map_loop t2 oc e2 n' m).
Proof. induction n as [|n IH]; intros [|n'] m; cbn [literal_map_loop]; sims. Qed.
Lemma sim_literal_map : sim (literal_map t1 oc e1) (literal_map t2 oc e2).
Proof. apply sim_map. Qed.
Lemma sim_array n : forall n' acc, sim (array_loop t1 e1 n acc) (array_loop t2 e2 n' acc).
Proof. induction n as [|n IH]; intros [|n'] acc; cbn [array_loop]; sims. Qed.
Lemma sim_args n : forall n' acc, sim (args_loop t1 oc e1 n acc) (args_loop t2 oc e2 n' acc).
Proof. induction n as [|n IH]; intros [|n'] acc; cbn [args_loop]; sims. Qed.
Ltac sim_leaf6 :=
  lazymatch goal with
  | |- sim (function_definition _ _ _ _) _ => apply sim_function
  | |- sim (literal_map _ _ _) _ => apply sim_literal_map
  | |- sim (array_loop _ _ _ _) _ => apply sim_array
  | |- sim (args_loop _ _ _ _ _) _ => apply sim_args
  | |- _ => sim_leaf5
  end.
Ltac sim_leaf ::= sim_leaf6.
Lemma sim_finish_call e l : sim (finish_call t1 oc e1 e l) (finish_call t2 oc e2 e l).
Proof. unfold finish_call. sims. Qed.
Lemma sim_juxtaposed e l : sim (finish_call_without_parens t1 oc e1 e l) (finish_call_without_parens t2 oc e2 e l).
Proof. unfold finish_call_without_parens. sims. Qed.
Lemma sim_index e l : sim (finish_get_index t1 oc e1 e l) (finish_get_index t2 oc e2 e l).
Proof. unfold finish_get_index. sims. Qed.
Ltac sim_leaf7 :=
  lazymatch goal with
  | |- sim (finish_call _ _ _ _ _) _ => apply sim_finish_call
  | |- sim (finish_call_without_parens _ _ _ _ _) _ => apply sim_juxtaposed
  | |- sim (finish_get_index _ _ _ _ _) _ => apply sim_index
  | |- _ => sim_leaf6
  end.
Ltac sim_leaf ::= sim_leaf7.
Ltac mono_leaf2 :=
  lazymatch goal with
  | |- mono (function_definition _ _ _ _) => exact (sim_mono _ _ (sim_function _))
  | |- mono (literal_map _ _ _) => exact (sim_mono _ _ sim_literal_map)
  | |- mono (array_loop _ _ _ _) => exact (sim_mono _ _ (sim_array _ 0 _))
  | |- mono (finish_call _ _ _ _ _) => exact (sim_mono _ _ (sim_finish_call _ _))
  | |- mono (finish_call_without_parens _ _ _ _ _) => exact (sim_mono _ _ (sim_juxtaposed _ _))
  | |- mono (finish_get_index _ _ _ _ _) => exact (sim_mono _ _ (sim_index _ _))
  | |- mono (finish_block _ _ _ _) => exact (sim_mono _ _ (sim_finish_block _))
  | |- _ => mono_leaf1
  end.
Ltac mono_leaf ::= mono_leaf2.

Definition sim_at {A} (s : pstate) (f g : P A) : Prop :=
  match f s with
  | POk a s1 => cur s <= cur s1 /\ (cur s1 < p -> g s = POk a s1 \/ g s = PFuel)
  | PErr c s1 => cur s <= cur s1 /\ (cur s1 < p -> g s = PErr c s1 \/ g s = PFuel)
  | PPanic _ | PFuel => True
  end.
Lemma sim_cases {A} (f g : P A) : mono f -> (forall s, cur s < p -> sim_at s f g) -> sim f g.
Proof.
  intros M H s. destruct (Nat.lt_ge_cases (cur s) p) as [L|L]; [exact (H s L)|].
  specialize (M s). destruct (f s); auto; (split; [auto|lia]).
Qed.
Lemma at_gets {A B} s (f g : pstate -> A) (h k : A -> P B) : f s = g s -> sim_at s (h (f s)) (k (f s)) ->
  sim_at s (pbind (gets f) h) (pbind (gets g) k).
Proof. unfold sim_at, pbind, gets. now intros <-. Qed.

Lemma sim_primary : sim (primary t1 oc e1 d1) (primary t2 oc e2 d2).
Proof.
  apply sim_cases.
  - unfold primary. apply mono_bind; [apply mono_gets|]. intros [t|]; [|apply mono_panic].
    destruct (t_type t); monos.
  - intros s L. unfold primary. apply at_gets; [now apply peek_same|].
    unfold peek. destruct (nth_here _ L) as (t & Q & _). rewrite Q.
    destruct (t_type t) eqn:K.
    all: try match goal with
    | |- sim_at _ (pbind (gets (check_next_st _ Colon)) _) _ =>
      apply at_gets; [apply check_next_same; apply (room _ _ L Q); rewrite K; reflexivity|];
      destruct (check_next_st t1 Colon s)
    end.
    all: match goal with |- sim_at ?s ?f ?g => cut (sim f g); [intros H; exact (H s)|] end.
    all: sims.
Qed.
Lemma sim_call_loop n : forall n' e, sim (call_loop t1 oc e1 n e) (call_loop t2 oc e2 n' e).
Proof. induction n as [|n IH]; intros [|n'] e; cbn [call_loop]; sims. Qed.
Ltac sim_leaf8 :=
  lazymatch goal with
  | |- sim (primary _ _ _ _) _ => apply sim_primary
  | |- sim (call_loop _ _ _ _ _) _ => apply sim_call_loop
  | |- _ => sim_leaf7
  end.
Ltac sim_leaf ::= sim_leaf8.
Lemma sim_call : sim (call t1 oc e1 d1) (call t2 oc e2 d2).
Proof. unfold call. sims. Qed.
Ltac mono_leaf3 :=
  lazymatch goal with
  | |- mono (call _ _ _ _) => exact (sim_mono _ _ sim_call)
  | |- _ => mono_leaf2
  end.
Ltac mono_leaf ::= mono_leaf3.
Ltac sim_leaf9 :=
  lazymatch goal with
  | |- sim (call _ _ _ _) _ => apply sim_call
  | |- _ => sim_leaf8
  end.
Ltac sim_leaf ::= sim_leaf9.
Lemma sim_unary_fuel n : forall n', sim (unary_fuel t1 oc e1 d1 n) (unary_fuel t2 oc e2 d2 n').
Proof.
  induction n as [|n IH]; intros [|n']; cbn [unary_fuel]; sims.
Qed.
Lemma sim_unary : sim (unary t1 oc e1 d1) (unary t2 oc e2 d2).
Proof. exact (sim_unary_fuel _ _). Qed.
Lemma sim_multiplication_loop n : forall n' e,
  sim (multiplication_loop t1 oc e1 d1 n e) (multiplication_loop t2 oc e2 d2 n' e).
Proof. pose proof sim_unary. induction n as [|n IH]; intros [|n'] e; cbn [multiplication_loop]; sims. Qed.
Lemma sim_multiplication : sim (multiplication t1 oc e1 d1) (multiplication t2 oc e2 d2).
Proof. pose proof sim_unary. pose proof (sim_multiplication_loop (loop_fuel t1)). unfold multiplication. sims. Qed.
Lemma sim_addition_loop n : forall n' e, sim (addition_loop t1 oc e1 d1 n e) (addition_loop t2 oc e2 d2 n' e).
Proof. pose proof sim_multiplication. induction n as [|n IH]; intros [|n'] e; cbn [addition_loop]; sims. Qed.
Lemma sim_addition : sim (addition t1 oc e1 d1) (addition t2 oc e2 d2).
Proof. pose proof sim_multiplication. pose proof (sim_addition_loop (loop_fuel t1)). unfold addition. sims. Qed.
Lemma sim_comparison_loop n : forall n' e, sim (comparison_loop t1 oc e1 d1 n e) (comparison_loop t2 oc e2 d2 n' e).
Proof. pose proof sim_addition. induction n as [|n IH]; intros [|n'] e; cbn [comparison_loop]; sims. Qed.
Lemma sim_comparison : sim (comparison t1 oc e1 d1) (comparison t2 oc e2 d2).
Proof. pose proof sim_addition. pose proof (sim_comparison_loop (loop_fuel t1)). unfold comparison. sims. Qed.
Lemma sim_equality_loop n : forall n' e, sim (equality_loop t1 oc e1 d1 n e) (equality_loop t2 oc e2 d2 n' e).
Proof. pose proof sim_comparison. induction n as [|n IH]; intros [|n'] e; cbn [equality_loop]; sims. Qed.
Lemma sim_equality : sim (equality t1 oc e1 d1) (equality t2 oc e2 d2).
Proof. pose proof sim_comparison. pose proof (sim_equality_loop (loop_fuel t1)). unfold equality. sims. Qed.
Lemma sim_and_loop n : forall n' e, sim (and_loop t1 oc e1 d1 n e) (and_loop t2 oc e2 d2 n' e).
Proof. pose proof sim_equality. induction n as [|n IH]; intros [|n'] e; cbn [and_loop]; sims. Qed.
Lemma sim_and : sim (and_ t1 oc e1 d1) (and_ t2 oc e2 d2).
Proof. pose proof sim_equality. pose proof (sim_and_loop (loop_fuel t1)). unfold and_. sims. Qed.
Lemma sim_or_loop n : forall n' e, sim (or_loop t1 oc e1 d1 n e) (or_loop t2 oc e2 d2 n' e).
Proof. pose proof sim_and. induction n as [|n IH]; intros [|n'] e; cbn [or_loop]; sims. Qed.
Lemma sim_or : sim (or_ t1 oc e1 d1) (or_ t2 oc e2 d2).
Proof. pose proof sim_and. pose proof (sim_or_loop (loop_fuel t1)). unfold or_. sims. Qed.
Lemma sim_target e r l : sim (assign_target e r l) (assign_target e r l).
Proof. unfold assign_target. sims. Qed.
Lemma sim_expression : sim (expression t1 oc e1 d1) (expression t2 oc e2 d2).
Proof. pose proof sim_or. pose proof sim_target. unfold expression, assignment. sims. Qed.
Ltac sim_leaf10 :=
  lazymatch goal with
  | |- sim (expression _ _ _ _) _ => apply sim_expression
  | |- _ => sim_leaf9
  end.
Ltac sim_leaf ::= sim_leaf10.
Lemma sim_expression_statement : sim (expression_statement t1 trailing oc e1 d1) (expression_statement t2 trailing oc e2 d2).
Proof. unfold expression_statement. sims. Qed.
Lemma sim_finish_var b : sim (finish_var_declaration t1 oc e1 d1 b) (finish_var_declaration t2 oc e2 d2 b).
Proof. unfold finish_var_declaration. sims. Qed.
Lemma sim_finish_fun : sim (finish_fun_declaration t1 oc d1) (finish_fun_declaration t2 oc d2).
Proof. unfold finish_fun_declaration. sims. Qed.
Lemma sim_methods n : forall n' k acc, sim (method_loop t1 oc d1 n k acc) (method_loop t2 oc d2 n' k acc).
Proof. pose proof sim_finish_fun. induction n as [|n IH]; intros [|n'] k acc; cbn [method_loop]; sims. Qed.
Lemma sim_finish_class : sim (finish_class_declaration t1 oc d1) (finish_class_declaration t2 oc d2).
Proof. pose proof (sim_methods (loop_fuel t1)). unfold finish_class_declaration. sims. Qed.
Lemma sim_break l : sim (finish_break_statement t1 oc l) (finish_break_statement t2 oc l).
Proof. unfold finish_break_statement. sims. Qed.
Lemma sim_continue l : sim (finish_continue_statement t1 oc l) (finish_continue_statement t2 oc l).
Proof. unfold finish_continue_statement. sims. Qed.
Definition counted (body : P stmt) : P stmt := fun s =>
  match body s with
  | POk b s1 => match decr_loops_st s1 with Some s2 => POk b s2 | None => PPanic "attempt to subtract with overflow" end
  | PErr c s1 => match decr_loops_st s1 with Some s2 => PErr c s2 | None => PPanic "attempt to subtract with overflow" end
  | PPanic w => PPanic w
  | PFuel => PFuel
  end.
Definition body_as (t : list token) (d st : P stmt) : P stmt :=
  pdo incr_loops ;;
  plet b <- gets (fun s => check_st t Terminator s || check_st t LeftBrace s) ;;
  if (b : bool) then
    plet k <- consume_begin_block t oc "Expect '{' or indent before loop body." ;;
    counted (plet b <- finish_block t oc d k ;; pret (SBlock b))
  else counted st.
Lemma body_is t d st s : loop_body_statement t oc st d s = body_as t d st s.
Proof.
  unfold loop_body_statement, body_as, pbind, incr_loops, gets, pret, counted.
  destruct (check_st t Terminator _ || check_st t LeftBrace _); [|reflexivity].
  destruct (consume_begin_block t oc _ _); reflexivity.
Qed.
Lemma decr_cur s r : decr_loops_st s = Some r -> cur r = cur s.
Proof. unfold decr_loops_st. destruct (loops s); [discriminate|]. intros Q. now injection Q as <-. Qed.
Lemma sim_counted f g : sim f g -> sim (counted f) (counted g).
Proof.
  intros H s. specialize (H s). unfold counted. destruct (f s) as [a r|c r| |]; auto;
  destruct (decr_loops_st r) as [r'|] eqn:Dr; auto; destruct H as [L H]; pose proof (decr_cur _ _ Dr) as C;
  (split; [lia|]; intros B; rewrite C in B; destruct (H B) as [-> | ->]; auto; rewrite Dr; auto).
Qed.
Lemma sim_incr : sim incr_loops incr_loops.
Proof. intros s. unfold incr_loops. cbn. auto. Qed.
Lemma sim_body : sim (loop_body_statement t1 oc s1 d1) (loop_body_statement t2 oc s2 d2).
Proof.
  intros s. rewrite !body_is. revert s. change (sim (body_as t1 d1 s1) (body_as t2 d2 s2)). unfold body_as.
  apply sim_bind; [apply sim_incr|intros _]. apply sim_bind; [sims|intros [|]]; [|now apply sim_counted].
  apply sim_bind; [sims|intros k]. apply sim_counted. sims.
Qed.
Ltac sim_leaf11 :=
  lazymatch goal with
  | |- sim (expression_statement _ _ _ _ _) _ => apply sim_expression_statement
  | |- sim (finish_var_declaration _ _ _ _ _) _ => apply sim_finish_var
  | |- sim (finish_fun_declaration _ _ _) _ => apply sim_finish_fun
  | |- sim (finish_class_declaration _ _ _) _ => apply sim_finish_class
  | |- sim (finish_break_statement _ _ _) _ => apply sim_break
  | |- sim (finish_continue_statement _ _ _) _ => apply sim_continue
  | |- sim (loop_body_statement _ _ _ _) _ => apply sim_body
  | |- _ => sim_leaf10
  end.
Ltac sim_leaf ::= sim_leaf11.
Lemma sim_for : sim (finish_for_statement t1 trailing oc e1 s1 d1) (finish_for_statement t2 trailing oc e2 s2 d2).
Proof. unfold finish_for_statement. sims. Qed.
Lemma sim_finish_if : sim (finish_if_statement t1 oc e1 s1 d1) (finish_if_statement t2 oc e2 s2 d2).
Proof. unfold finish_if_statement. sims. Qed.
Lemma sim_print : sim (finish_print_statement t1 oc e1 d1) (finish_print_statement t2 oc e2 d2).
Proof. unfold finish_print_statement. sims. Qed.
Lemma sim_return l : sim (finish_return_statement t1 oc e1 d1 l) (finish_return_statement t2 oc e2 d2 l).
Proof. unfold finish_return_statement. sims. Qed.
Lemma sim_while : sim (finish_while_statement t1 oc e1 s1 d1) (finish_while_statement t2 oc e2 s2 d2).
Proof. unfold finish_while_statement. sims. Qed.
Lemma sim_statement : sim (statement t1 trailing oc e1 s1 d1) (statement t2 trailing oc e2 s2 d2).
Proof. pose proof sim_for. pose proof sim_finish_if. pose proof sim_print. pose proof sim_return. pose proof sim_while. unfold statement. sims. Qed.

(** ** A declaration that starts at the keyword [fun] reads it *)
Definition past {A} (f : P A) (s : pstate) : Prop :=
  match f s with POk _ r | PErr _ r => cur s < cur r | PPanic _ | PFuel => True end.
Lemma past_bind {A B} (f : P A) (h : A -> P B) s : past f s -> (forall a, mono (h a)) -> past (pbind f h) s.
Proof.
  intros F H. unfold past, pbind in *. destruct (f s) as [a r| | |]; auto. specialize (H a r).
  destruct (h a r); auto; lia.
Qed.
Lemma past_skip {A B} (f : P A) (h : A -> P B) s a : f s = POk a s -> past (h a) s -> past (pbind f h) s.
Proof. intros F H. unfold past, pbind in *. now rewrite F. Qed.
Lemma past_at {A} (f g : P A) s : past f s -> p <= S (cur s) -> sim_at s f g.
Proof. intros F L. unfold past, sim_at in *. destruct (f s); auto; (split; [|intros ?]; lia). Qed.

Section AtFun.
Variables (s : pstate) (t : token).
Hypothesis Here : nth_error t1 (cur s) = Some t.
Hypothesis IsFun : t_type t = Fun.
Lemma fun_not_end : is_at_end t1 s = false.
Proof. unfold is_at_end, peek. now rewrite Here, IsFun. Qed.
Lemma fun_match k : tt_eqb Fun k = false -> match_token t1 k s = POk false s.
Proof.
  intros K. unfold match_token, check, gets, pbind, check_st. rewrite fun_not_end. unfold peek. rewrite Here. cbn.
  now rewrite IsFun, K.
Qed.
Lemma fun_matches ks : tt_mem Fun ks = false -> matches t1 ks s = POk None s.
Proof. intros K. unfold matches, gets, pbind, peek. now rewrite Here, IsFun, K. Qed.
Lemma past_advance : past (advance t1) s.
Proof. unfold past, advance, advance_st. rewrite fun_not_end. cbn. lia. Qed.
Lemma past_primary : past (primary t1 oc e1 d1) s.
Proof.
  unfold primary. eapply past_skip; [reflexivity|]. unfold peek. rewrite Here, IsFun.
  apply past_bind; [apply past_advance|intros ?; monos].
Qed.
Lemma past_call : past (call t1 oc e1 d1) s.
Proof. unfold call. apply past_bind; [apply past_primary|]. intros a. exact (sim_mono _ _ (sim_call_loop _ 0 _)). Qed.
Lemma past_unary : past (unary t1 oc e1 d1) s.
Proof. unfold unary, loop_fuel. cbn [unary_fuel]. eapply past_skip; [now apply fun_matches|]. apply past_call. Qed.
Lemma past_multiplication : past (multiplication t1 oc e1 d1) s.
Proof. unfold multiplication. apply past_bind; [apply past_unary|]. intros a. exact (sim_mono _ _ (sim_multiplication_loop _ 0 _)). Qed.
Lemma past_addition : past (addition t1 oc e1 d1) s.
Proof. unfold addition. apply past_bind; [apply past_multiplication|]. intros a. exact (sim_mono _ _ (sim_addition_loop _ 0 _)). Qed.
Lemma past_comparison : past (comparison t1 oc e1 d1) s.
Proof. unfold comparison. apply past_bind; [apply past_addition|]. intros a. exact (sim_mono _ _ (sim_comparison_loop _ 0 _)). Qed.
Lemma past_equality : past (equality t1 oc e1 d1) s.
Proof. unfold equality. apply past_bind; [apply past_comparison|]. intros a. exact (sim_mono _ _ (sim_equality_loop _ 0 _)). Qed.
Lemma past_and : past (and_ t1 oc e1 d1) s.
Proof. unfold and_. apply past_bind; [apply past_equality|]. intros a. exact (sim_mono _ _ (sim_and_loop _ 0 _)). Qed.
Lemma past_or : past (or_ t1 oc e1 d1) s.
Proof. unfold or_. apply past_bind; [apply past_and|]. intros a. exact (sim_mono _ _ (sim_or_loop _ 0 _)). Qed.
Lemma past_expression : past (expression t1 oc e1 d1) s.
Proof.
  unfold expression, assignment. eapply past_skip; [now apply fun_match|]. cbv iota.
  apply past_bind; [apply past_or|intros a].
  monos. exact (sim_mono _ _ (sim_target _ _ _)).
Qed.
Lemma past_statement : past (statement t1 trailing oc e1 s1 d1) s.
Proof.
  unfold statement. eapply past_skip; [now apply fun_matches|]. cbv iota. unfold expression_statement.
  apply past_bind; [apply past_expression|intros a]. monos.
Qed.
Lemma past_declaration : past (declaration t1 trailing oc e1 s1 d1) s.
Proof.
  unfold declaration. eapply past_skip; [now apply fun_match|]. cbv iota. eapply past_skip; [reflexivity|].
  destruct (check_st t1 Fun s && check_next_st t1 Identifier s).
  - apply past_bind; [|intros ?; pose proof sim_finish_fun; monos].
    unfold past, consume, consume_any_of, matches, gets, pbind, peek. rewrite Here, IsFun. cbn.
    unfold advance_st. rewrite fun_not_end. cbn. lia.
  - eapply past_skip; [now apply fun_match|]. cbv iota. apply past_statement.
Qed.
End AtFun.

Lemma mono_declaration : mono (declaration t1 trailing oc e1 s1 d1).
Proof.
  pose proof sim_finish_fun. pose proof sim_finish_class. pose proof (sim_finish_var false). pose proof sim_statement.
  unfold declaration. monos.
Qed.
Lemma at_bind {A B} (f g : P A) (h k : A -> P B) s : cur s < p -> sim f g ->
  (forall a r, f s = POk a r -> sim_at r (h a) (k a)) -> sim_at s (pbind f h) (pbind g k).
Proof.
  intros Ls F H. specialize (F s). unfold sim_at, pbind in *. destruct (f s) as [a r|c r| |]; auto.
  2: { destruct F as [L F]. split; [lia|]. intros C. destruct F as [-> | ->]; auto. }
  destruct F as [L F]. specialize (H a r eq_refl). destruct (h a r); auto; destruct H as [L2 H];
    (split; [lia|]); intros C; (destruct F as [-> | ->]; [lia|auto|auto]).
Qed.
Lemma sim_declaration : sim (declaration t1 trailing oc e1 s1 d1) (declaration t2 trailing oc e2 s2 d2).
Proof.
  apply sim_cases; [apply mono_declaration|]. intros s L.
  destruct (nth_here _ L) as (t & Q & _).
  assert (Z : (t_type t = Fun /\ p <= S (cur s)) \/
    check_st t1 Fun s && check_next_st t1 Identifier s = check_st t2 Fun s && check_next_st t2 Identifier s).
  { rewrite <- check_same by exact L. destruct (check_st t1 Fun s) eqn:C; [|now right].
    destruct (Nat.lt_ge_cases (S (cur s)) p) as [R|R]; [right; cbn [andb]; now apply check_next_same|left].
    split; [|exact R]. unfold check_st, peek in C. rewrite Q in C. apply andb_true_iff in C. now apply same_type. }
  destruct Z as [[K R]|Z]; [apply past_at; auto; now apply (past_declaration _ t)|].
  unfold declaration. apply at_bind; [exact L|apply sim_match_token|].
  intros [|] r M.
  - apply sim_finish_class.
  - assert (r = s) as ->.
    { unfold match_token, check, gets, pbind in M. destruct (check_st t1 Class s); [discriminate|]. now injection M. }
    apply at_gets; [exact Z|]. pose proof (sim_statement).
    match goal with |- sim_at ?s ?f ?g => cut (sim f g); [intros G; exact (G s)|] end. sims.
Qed.
End Knot.

Lemma sim_level n : forall n', sim (k_expr (level t1 trailing oc n)) (k_expr (level t2 trailing oc n')) /\
  sim (k_stmt (level t1 trailing oc n)) (k_stmt (level t2 trailing oc n')) /\
  sim (k_decl (level t1 trailing oc n)) (k_decl (level t2 trailing oc n')).
Proof.
  induction n as [|n IH]; intros n'; [repeat split; apply sim_fuel|].
  destruct n' as [|n'].
  - destruct (IH 0) as (E & Sm & D). cbn [level k_expr k_stmt k_decl] in *.
    split; [|split]; apply mono_sim; eapply sim_mono;
      [eapply (sim_expression _ pfuel _ pfuel)|eapply (sim_statement _ pfuel _ pfuel _ pfuel)|eapply (sim_declaration _ pfuel _ pfuel _ pfuel)]; eauto.
  - destruct (IH n') as (E & Sm & D). cbn [level k_expr k_stmt k_decl].
    split; [|split]; [apply sim_expression|apply sim_statement|apply sim_declaration]; auto.
Qed.
End Two.
