(** What a parser does on a list of tokens without end-of-file token. *)
From Verif Require Import Base F64 Token Ast Scanner Parser ParserApi Repair Progress ApiTop.
From Coq Require Import Lia.

Section Missing.
Variable X : list token.
Variables last eof : token.
Hypothesis IsEof : t_type eof = Eof.
Hypothesis IsLast : nth_error X (length X - 1) = Some last.
Hypothesis Placed : tloc eof = tloc last.
Hypothesis NoEof : Forall (fun t => t_type t <> Eof) X.
Variables trailing oc : bool.
Notation t1 := X.
Notation t2 := (X ++ [eof]).
Notation p := (length X).

(** ** Agreement: the same result up to the lexemes of errors, unless one of the two runs out of fuel or the first panics *)
Definition same_error (c c' : cause) : Prop := c_loc c = c_loc c' /\ c_message c = c_message c'.
Definition rel {A} (x y : pres A) : Prop :=
  match x, y with
  | PFuel, _ | _, PFuel | PPanic _, _ => True
  | POk a u, POk b v => a = b /\ u = v /\ cur u <= p
  | PErr c u, PErr c' v => same_error c c' /\ u = v /\ cur u <= p
  | _, _ => False
  end.
Lemma rel_panic {A} w (s : pstate) (y : pres A) : rel (ppanic w s) y.
Proof. now destruct y. Qed.
Definition sim {A} (f g : P A) : Prop := forall s, cur s <= p -> rel (f s) (g s).
Lemma sim_ret {A} (a : A) : sim (pret a) (pret a).
Proof. intros s L. cbn. auto. Qed.
Lemma sim_fail {A} c : sim (@pfail A c) (pfail c).
Proof. intros s L. cbn. repeat split; auto. Qed.
Lemma sim_panic {A} w (g : P A) : sim (@ppanic A w) g.
Proof. intros s L. cbn. now destruct (g s). Qed.
Lemma sim_fuel {A} (g : P A) : sim pfuel g.
Proof. intros s L. exact I. Qed.
Lemma sim_fuel2 {A} (g : P A) : sim g pfuel.
Proof. intros s L. cbn. now destruct (g s). Qed.
Lemma sim_bind {A B} (f g : P A) (h k : A -> P B) : sim f g -> (forall a, sim (h a) (k a)) -> sim (pbind f h) (pbind g k).
Proof.
  intros F H s L. specialize (F s L). unfold pbind. destruct (f s) as [a u|c u|w|], (g s) as [b v|c' v|w'|]; cbn in F |- *; auto; try contradiction.
  - destruct F as (-> & -> & Lv). exact (H b v Lv).
  - destruct (h a u); cbn; auto.
  - destruct (k b v); cbn; auto.
Qed.
Lemma sim_gets {A} (f g : pstate -> A) : (forall s, cur s <= p -> f s = g s) -> sim (gets f) (gets g).
Proof. intros H s L. cbn. auto. Qed.

(** ** Looking *)
Lemma nonempty : 0 < p.
Proof. clear - IsLast. destruct X; [discriminate|cbn; lia]. Qed.
Lemma nth_same i : i < p -> nth_error t1 i = nth_error t2 i.
Proof. intros L. now rewrite nth_error_app1. Qed.
Lemma nth_eof : nth_error t2 p = Some eof.
Proof. now rewrite nth_error_app2, Nat.sub_diag by lia. Qed.
Lemma nth_none : nth_error t1 p = None.
Proof. now apply nth_error_None. Qed.
Lemma peek_same s : cur s < p -> peek t1 s = peek t2 s.
Proof. apply nth_same. Qed.
Lemma peek_none s : cur s = p -> peek t1 s = None /\ peek t2 s = Some eof.
Proof. unfold peek. intros ->. now rewrite nth_none, nth_eof. Qed.
Lemma tok_is_same i k : i <= p -> k <> Eof -> tok_is (nth_error t1 i) k = tok_is (nth_error t2 i) k.
Proof.
  intros L N. destruct (Nat.eq_dec i p) as [->|Q]; [|now rewrite nth_same by lia].
  rewrite nth_none, nth_eof. cbn. rewrite IsEof. destruct k; auto; congruence.
Qed.
Lemma tok_in_same i ks : i <= p -> tt_mem Eof ks = false -> tok_in (nth_error t1 i) ks = tok_in (nth_error t2 i) ks.
Proof.
  intros L N. destruct (Nat.eq_dec i p) as [->|Q]; [|now rewrite nth_same by lia].
  rewrite nth_none, nth_eof. cbn. now rewrite IsEof, N.
Qed.
Lemma end_same s : cur s <= p -> is_at_end t1 s = is_at_end t2 s.
Proof.
  intros L. unfold is_at_end, peek. destruct (Nat.eq_dec (cur s) p) as [->|Q]; [|now rewrite nth_same by lia].
  rewrite nth_none, nth_eof, IsEof. reflexivity.
Qed.
Lemma end_there s : cur s = p -> is_at_end t1 s = true.
Proof. intros Q. unfold is_at_end, peek. now rewrite Q, nth_none. Qed.
Lemma before s : cur s <= p -> is_at_end t1 s = false -> cur s < p.
Proof. intros L Q. destruct (Nat.eq_dec (cur s) p) as [E|E]; [|lia]. now rewrite end_there in Q. Qed.
Lemma check_same k s : cur s <= p -> check_st t1 k s = check_st t2 k s.
Proof.
  intros L. unfold check_st. rewrite <- end_same by auto. destruct (is_at_end t1 s) eqn:Q; auto. cbn [negb andb].
  now rewrite peek_same by now apply before.
Qed.
Lemma check_any_same ks s : cur s <= p -> check_any_of_st t1 ks s = check_any_of_st t2 ks s.
Proof.
  intros L. unfold check_any_of_st. rewrite <- end_same by auto. destruct (is_at_end t1 s) eqn:Q; auto. cbn [negb andb].
  now rewrite peek_same by now apply before.
Qed.
Lemma check_next_same k s : cur s <= p -> k <> Eof -> check_next_st t1 k s = check_next_st t2 k s.
Proof.
  intros L N. unfold check_next_st, peek_next. rewrite <- end_same by auto. destruct (is_at_end t1 s) eqn:Q; auto. cbn [negb andb].
  apply before in Q; auto. rewrite tok_is_same by (auto; lia). reflexivity.
Qed.
Lemma check_next_any_same ks s : cur s <= p -> tt_mem Eof ks = false -> check_next_any_of_st t1 ks s = check_next_any_of_st t2 ks s.
Proof.
  intros L N. unfold check_next_any_of_st, peek_next. rewrite <- end_same by auto. destruct (is_at_end t1 s) eqn:Q; auto. cbn [negb andb].
  apply before in Q; auto. rewrite tok_in_same by (auto; lia). reflexivity.
Qed.
Lemma entry_same s : cur s <= p ->
  check_any_of_st t1 [Identifier; TString] s && check_next_st t1 Colon s =
  check_any_of_st t2 [Identifier; TString] s && check_next_st t2 Colon s.
Proof. intros L. rewrite check_any_same, check_next_same; auto. discriminate. Qed.
Lemma key_next_same s : cur s <= p ->
  check_next_any_of_st t1 [Identifier; TString] s && check_next_next_st t1 Colon s =
  check_next_any_of_st t2 [Identifier; TString] s && check_next_next_st t2 Colon s.
Proof.
  intros L. rewrite <- check_next_any_same by auto. destruct (check_next_any_of_st t1 [Identifier; TString] s) eqn:E; auto. cbn [andb].
  assert (S (cur s) < p).
  { unfold check_next_any_of_st in E. apply andb_true_iff in E. destruct E as [E1 E2].
    unfold peek_next in E2. destruct (nth_error X (cur s + 1)) eqn:Q; [|discriminate].
    assert (nth_error X (cur s + 1) <> None) as B by congruence. apply nth_error_Some in B. lia. }
  unfold check_next_next_st, peek_next_next. rewrite <- end_same by auto. rewrite tok_is_same; auto; [lia|discriminate].
Qed.
Lemma more_same s : cur s <= p ->
  (check_st t1 Comma s || check_st t1 Terminator s &&
    (check_next_any_of_st t1 [Identifier; TString] s && check_next_next_st t1 Colon s || check_next_st t1 RightBrace s)) =
  (check_st t2 Comma s || check_st t2 Terminator s &&
    (check_next_any_of_st t2 [Identifier; TString] s && check_next_next_st t2 Colon s || check_next_st t2 RightBrace s)).
Proof. intros L. rewrite !check_same, key_next_same, check_next_same; auto. discriminate. Qed.

(** ** The functions *)
Lemma sim_advance : sim (advance t1) (advance t2).
Proof.
  intros s L. unfold advance, advance_st. rewrite <- end_same by auto. destruct (is_at_end t1 s) eqn:Q; cbn; auto.
  apply before in Q; auto. repeat apply conj; auto. lia.
Qed.
Lemma sim_check k : sim (check t1 k) (check t2 k).
Proof. apply sim_gets. intros. now apply check_same. Qed.
Lemma sim_previous : sim (previous t1 oc) (previous t2 oc).
Proof.
  intros s L. unfold previous. destruct (cur s) as [|n] eqn:E; [destruct oc; cbn; auto; rewrite E; auto|].
  cbn. rewrite nth_same by lia. repeat apply conj; auto. lia.
Qed.
Lemma sim_peek_bind {B} (h k : option token -> P B) : (forall t, sim (h (Some t)) (k (Some t))) ->
  (forall s, cur s = p -> rel (h None s) (k (Some eof) s)) -> sim (pbind (gets (peek t1)) h) (pbind (gets (peek t2)) k).
Proof.
  intros H N s L. unfold pbind, gets. destruct (Nat.eq_dec (cur s) p) as [Q|Q].
  - destruct (peek_none s Q) as [-> ->]. now apply N.
  - rewrite peek_same by lia. destruct (peek t2 s) as [t|] eqn:E; [now apply H|].
    exfalso. unfold peek in E. apply nth_error_None in E. rewrite app_length in E. cbn in E. lia.
Qed.

(** One step of a proof that two parsers agree, by the form of the first. *)
Ltac sim_leaf := fail.
Ltac sim_step :=
  lazymatch goal with
  | |- sim _ pfuel => apply sim_fuel2
  | |- sim (pret _) _ => apply sim_ret
  | |- sim (pfail _) _ => apply sim_fail
  | |- sim (ppanic _) _ => apply sim_panic
  | |- sim pfuel _ => apply sim_fuel
  | |- sim (advance _) _ => apply sim_advance
  | |- sim (check _ _) _ => apply sim_check
  | |- sim (previous _ _) _ => apply sim_previous
  | |- sim (gets loops) _ => apply sim_gets; reflexivity
  | |- sim (gets _) (gets _) => apply sim_gets; intros; first
      [ apply check_same; assumption | apply check_next_same; [assumption|discriminate] | apply check_any_same; assumption | apply entry_same; assumption | apply more_same; assumption
      | rewrite <- ?check_same, <- ?end_same, <- ?check_next_same by (assumption || discriminate); reflexivity ]
  | |- sim (pbind (gets (peek _)) _) _ => apply sim_peek_bind; [intros ?|intros ? ?; try apply rel_panic]
  | |- sim (pbind _ _) (pbind _ _) => apply sim_bind; [|intros ?]
  | |- sim (if ?b then _ else _) (if ?b then _ else _) => destruct b
  | |- sim (match ?x with _ => _ end) (match ?x with _ => _ end) => destruct x
  | |- _ => sim_leaf
  end.
Ltac sims := repeat (sim_step || (progress cbv beta zeta)).

Lemma sim_match_token k : sim (match_token t1 k) (match_token t2 k). Proof. unfold match_token. sims. Qed.
Lemma sim_matches ks : tt_mem Eof ks = false -> sim (matches t1 ks) (matches t2 ks).
Proof.
  intros N. unfold matches. apply sim_bind; [|intros; sims]. apply sim_gets. intros s L.
  destruct (Nat.eq_dec (cur s) p) as [Q|Q]; [|now rewrite <- peek_same by lia].
  destruct (peek_none s Q) as [-> ->]. now rewrite IsEof, N.
Qed.
Lemma sim_previous_loc : sim (previous_source_loc t1 oc) (previous_source_loc t2 oc). Proof. unfold previous_source_loc. sims. Qed.
Lemma last_loc s : cur s = p -> peek_source_loc t1 oc s = POk (tloc last) s /\ peek_source_loc t2 oc s = POk (tloc last) s.
Proof.
  intros Q. pose proof nonempty. unfold peek_source_loc, pbind, gets. destruct (peek_none s Q) as [-> ->]. split; [|now rewrite <- Placed].
  unfold previous. rewrite Q. destruct p as [|n] eqn:E; [lia|]. replace (S n - 1) with n in IsLast by lia. now rewrite IsLast.
Qed.
Lemma sim_peek_loc : sim (peek_source_loc t1 oc) (peek_source_loc t2 oc).
Proof.
  intros s L. destruct (Nat.eq_dec (cur s) p) as [Q|Q].
  - destruct (last_loc s Q) as [-> ->]. cbn. auto.
  - unfold peek_source_loc, pbind, gets. rewrite <- peek_same by lia. destruct (peek t1 s) as [t|] eqn:E; [cbn; auto|].
    unfold peek in E. apply nth_error_None in E. lia.
Qed.
Lemma sim_error_last {A} m : sim (@error_from_last t1 oc A m) (@error_from_last t2 oc A m).
Proof. unfold error_from_last. apply sim_bind; [apply sim_previous|intros o]. apply sim_bind; [apply sim_previous_loc|intros; sims]. Qed.
Lemma sim_error_peek {A} m : sim (@error_from_peek t1 oc A m) (@error_from_peek t2 oc A m).
Proof.
  unfold error_from_peek. apply sim_peek_bind.
  - intros t. apply sim_bind; [apply sim_peek_loc|intros; sims].
  - intros s Q. unfold pbind. destruct (last_loc s Q) as [-> ->]. cbn. repeat split; auto. lia.
Qed.
Ltac sim_leaf1 :=
  lazymatch goal with
  | |- sim (match_token _ _) _ => apply sim_match_token
  | |- sim (matches _ _) _ => apply sim_matches; reflexivity || assumption
  | |- sim (peek_source_loc _ _) _ => apply sim_peek_loc
  | |- sim (error_from_last _ _ _) _ => apply sim_error_last
  | |- sim (error_from_peek _ _ _) _ => apply sim_error_peek
  end.
Ltac sim_leaf ::= sim_leaf1.
Lemma sim_consume_any ks m : tt_mem Eof ks = false -> sim (consume_any_of t1 oc ks m) (consume_any_of t2 oc ks m).
Proof. intros N. unfold consume_any_of. sims. Qed.
Lemma sim_consume k m : tt_mem Eof [k] = false -> sim (consume t1 oc k m) (consume t2 oc k m).
Proof. apply sim_consume_any. Qed.
Lemma sim_identifier m : sim (consume_identifier t1 oc m) (consume_identifier t2 oc m).
Proof.
  unfold consume_identifier. apply sim_peek_bind; [intros; sims|]. intros s Q. rewrite IsEof. cbn [tt_eqb].
  apply (sim_error_peek m s). lia.
Qed.
Ltac sim_leaf2 :=
  lazymatch goal with
  | |- sim (consume_any_of _ _ _ _) _ => apply sim_consume_any; reflexivity
  | |- sim (consume _ _ _ _) _ => apply sim_consume; reflexivity
  | |- sim (consume_identifier _ _ _) _ => apply sim_identifier
  | |- _ => sim_leaf1
  end.
Ltac sim_leaf ::= sim_leaf2.
Lemma sim_begin m : sim (consume_begin_block t1 oc m) (consume_begin_block t2 oc m).
Proof. unfold consume_begin_block. sims. Qed.
Lemma sim_end k m : sim (consume_end_block t1 oc k m) (consume_end_block t2 oc k m).
Proof.
  destruct (tt_eqb k Eof) eqn:K; [|unfold consume_end_block; destruct k; try discriminate K; sims].
  destruct k; try discriminate K. intros s L. unfold consume_end_block. unfold pbind at 1, matches, gets. unfold pbind at 1. unfold peek.
  destruct (nth_error X (cur s)) as [t|] eqn:Q; [|apply rel_panic]. cbn [tt_mem].
  apply nth_error_In in Q. assert (t_type t <> Eof) as N by (rewrite Forall_forall in NoEof; auto).
  destruct (t_type t); try congruence; apply rel_panic.
Qed.
Ltac sim_leaf3 :=
  lazymatch goal with
  | |- sim (consume_begin_block _ _ _) _ => apply sim_begin
  | |- sim (consume_end_block _ _ _ _) _ => apply sim_end
  | |- _ => sim_leaf2
  end.
Ltac sim_leaf ::= sim_leaf3.

Section Knot.
Variables e1 e2 : P expr.
Variables s1 s2 d1 d2 : P stmt.
Hypothesis E : sim e1 e2.
Hypothesis Sm : sim s1 s2.
Hypothesis D : sim d1 d2.

Ltac sim_leaf4 :=
  first [ match goal with
    | H : sim ?f _ |- sim ?f _ => exact H
    | H : forall _, sim _ _ |- _ => apply H
    | H : forall _ _, sim _ _ |- _ => apply H
    | H : forall _ _ _, sim _ _ |- _ => apply H
    end | sim_leaf3 ].
Ltac sim_leaf ::= sim_leaf4.

Lemma sim_block n : forall n' k acc, sim (block_loop t1 d1 n k acc) (block_loop t2 d2 n' k acc).
Proof. induction n as [|n IH]; intros [|n'] k acc; cbn [block_loop]; sims. Qed.
Lemma sim_finish_block k : sim (finish_block t1 oc d1 k) (finish_block t2 oc d2 k).
Proof. unfold finish_block. pose proof (sim_block (loop_fuel t1)). sims. Qed.
Lemma sim_param n : forall n' acc, sim (param_loop t1 oc n acc) (param_loop t2 oc n' acc).
Proof. induction n as [|n IH]; intros [|n'] acc; cbn [param_loop]; sims. Qed.
Ltac sim_leaf5 :=
  lazymatch goal with
  | |- sim (finish_block _ _ _ _) _ => apply sim_finish_block
  | |- sim (param_loop _ _ _ _) _ => apply sim_param
  | |- _ => sim_leaf4
  end.
Ltac sim_leaf ::= sim_leaf5.
Lemma sim_function l : sim (function_definition t1 oc d1 l) (function_definition t2 oc d2 l).
Proof. unfold function_definition. sims. Qed.
Lemma sim_map n : forall n' m, sim (literal_map_loop t1 oc e1 n m) (literal_map_loop t2 oc e2 n' m).
Proof. induction n as [|n IH]; intros [|n'] m; cbn [literal_map_loop]; sims. Qed.
Lemma sim_literal_map : sim (literal_map t1 oc e1) (literal_map t2 oc e2).
Proof. apply sim_map. Qed.
Lemma sim_array n : forall n' acc, sim (array_loop t1 e1 n acc) (array_loop t2 e2 n' acc).
Proof. induction n as [|n IH]; intros [|n'] acc; cbn [array_loop]; sims. Qed.
Lemma sim_args n : forall n' acc, sim (args_loop t1 oc e1 n acc) (args_loop t2 oc e2 n' acc).
Proof. induction n as [|n IH]; intros [|n'] acc; cbn [args_loop]; sims. Qed.
Ltac sim_leaf6 :=
  lazymatch goal with
  | |- sim (function_definition _ _ _ _) _ => apply sim_function
  | |- sim (literal_map _ _ _) _ => apply sim_literal_map
  | |- sim (array_loop _ _ _ _) _ => apply sim_array
  | |- sim (args_loop _ _ _ _ _) _ => apply sim_args
  | |- _ => sim_leaf5
  end.
Ltac sim_leaf ::= sim_leaf6.
Lemma sim_finish_call e l : sim (finish_call t1 oc e1 e l) (finish_call t2 oc e2 e l).
Proof. unfold finish_call. sims. Qed.
Lemma sim_juxtaposed e l : sim (finish_call_without_parens t1 oc e1 e l) (finish_call_without_parens t2 oc e2 e l).
Proof. unfold finish_call_without_parens. sims. Qed.
Lemma sim_index e l : sim (finish_get_index t1 oc e1 e l) (finish_get_index t2 oc e2 e l).
Proof. unfold finish_get_index. sims. Qed.
Ltac sim_leaf7 :=
  lazymatch goal with
  | |- sim (finish_call _ _ _ _ _) _ => apply sim_finish_call
  | |- sim (finish_call_without_parens _ _ _ _ _) _ => apply sim_juxtaposed
  | |- sim (finish_get_index _ _ _ _ _) _ => apply sim_index
  | |- _ => sim_leaf6
  end.
Ltac sim_leaf ::= sim_leaf7.
Lemma sim_primary : sim (primary t1 oc e1 d1) (primary t2 oc e2 d2).
Proof. unfold primary. apply sim_peek_bind; [|intros; apply rel_panic]. intros t. destruct (t_type t); sims. Qed.
Lemma sim_call_loop n : forall n' e, sim (call_loop t1 oc e1 n e) (call_loop t2 oc e2 n' e).
Proof. induction n as [|n IH]; intros [|n'] e; cbn [call_loop]; sims. Qed.
Ltac sim_leaf8 :=
  lazymatch goal with
  | |- sim (primary _ _ _ _) _ => apply sim_primary
  | |- sim (call_loop _ _ _ _ _) _ => apply sim_call_loop
  | |- _ => sim_leaf7
  end.
Ltac sim_leaf ::= sim_leaf8.
Lemma sim_call : sim (call t1 oc e1 d1) (call t2 oc e2 d2).
Proof. unfold call. sims. Qed.
Ltac sim_leaf9 :=
  lazymatch goal with
  | |- sim (call _ _ _ _) _ => apply sim_call
  | |- _ => sim_leaf8
  end.
Ltac sim_leaf ::= sim_leaf9.
Lemma sim_unary_fuel n : forall n', sim (unary_fuel t1 oc e1 d1 n) (unary_fuel t2 oc e2 d2 n').
Proof.
  induction n as [|n IH]; intros [|n']; cbn [unary_fuel]; sims.
Qed.
Lemma sim_unary : sim (unary t1 oc e1 d1) (unary t2 oc e2 d2).
Proof. exact (sim_unary_fuel _ _). Qed.
Lemma sim_multiplication_loop n : forall n' e,
  sim (multiplication_loop t1 oc e1 d1 n e) (multiplication_loop t2 oc e2 d2 n' e).
Proof. pose proof sim_unary. induction n as [|n IH]; intros [|n'] e; cbn [multiplication_loop]; sims. Qed.
Lemma sim_multiplication : sim (multiplication t1 oc e1 d1) (multiplication t2 oc e2 d2).
Proof. pose proof sim_unary. pose proof (sim_multiplication_loop (loop_fuel t1)). unfold multiplication. sims. Qed.
Lemma sim_addition_loop n : forall n' e, sim (addition_loop t1 oc e1 d1 n e) (addition_loop t2 oc e2 d2 n' e).
Proof. pose proof sim_multiplication. induction n as [|n IH]; intros [|n'] e; cbn [addition_loop]; sims. Qed.
Lemma sim_addition : sim (addition t1 oc e1 d1) (addition t2 oc e2 d2).
Proof. pose proof sim_multiplication. pose proof (sim_addition_loop (loop_fuel t1)). unfold addition. sims. Qed.
Lemma sim_comparison_loop n : forall n' e, sim (comparison_loop t1 oc e1 d1 n e) (comparison_loop t2 oc e2 d2 n' e).
Proof. pose proof sim_addition. induction n as [|n IH]; intros [|n'] e; cbn [comparison_loop]; sims. Qed.
Lemma sim_comparison : sim (comparison t1 oc e1 d1) (comparison t2 oc e2 d2).
Proof. pose proof sim_addition. pose proof (sim_comparison_loop (loop_fuel t1)). unfold comparison. sims. Qed.
Lemma sim_equality_loop n : forall n' e, sim (equality_loop t1 oc e1 d1 n e) (equality_loop t2 oc e2 d2 n' e).
Proof. pose proof sim_comparison. induction n as [|n IH]; intros [|n'] e; cbn [equality_loop]; sims. Qed.
Lemma sim_equality : sim (equality t1 oc e1 d1) (equality t2 oc e2 d2).
Proof. pose proof sim_comparison. pose proof (sim_equality_loop (loop_fuel t1)). unfold equality. sims. Qed.
Lemma sim_and_loop n : forall n' e, sim (and_loop t1 oc e1 d1 n e) (and_loop t2 oc e2 d2 n' e).
Proof. pose proof sim_equality. induction n as [|n IH]; intros [|n'] e; cbn [and_loop]; sims. Qed.
Lemma sim_and : sim (and_ t1 oc e1 d1) (and_ t2 oc e2 d2).
Proof. pose proof sim_equality. pose proof (sim_and_loop (loop_fuel t1)). unfold and_. sims. Qed.
Lemma sim_or_loop n : forall n' e, sim (or_loop t1 oc e1 d1 n e) (or_loop t2 oc e2 d2 n' e).
Proof. pose proof sim_and. induction n as [|n IH]; intros [|n'] e; cbn [or_loop]; sims. Qed.
Lemma sim_or : sim (or_ t1 oc e1 d1) (or_ t2 oc e2 d2).
Proof. pose proof sim_and. pose proof (sim_or_loop (loop_fuel t1)). unfold or_. sims. Qed.
Lemma sim_target e r l : sim (assign_target e r l) (assign_target e r l).
Proof. unfold assign_target. sims. Qed.
Lemma sim_expression : sim (expression t1 oc e1 d1) (expression t2 oc e2 d2).
Proof. pose proof sim_or. pose proof sim_target. unfold expression, assignment. sims. Qed.
Ltac sim_leaf10 :=
  lazymatch goal with
  | |- sim (expression _ _ _ _) _ => apply sim_expression
  | |- _ => sim_leaf9
  end.
Ltac sim_leaf ::= sim_leaf10.
Lemma sim_expression_statement : sim (expression_statement t1 trailing oc e1 d1) (expression_statement t2 trailing oc e2 d2).
Proof. unfold expression_statement. sims. Qed.
Lemma sim_finish_var b : sim (finish_var_declaration t1 oc e1 d1 b) (finish_var_declaration t2 oc e2 d2 b).
Proof. unfold finish_var_declaration. sims. Qed.
Lemma sim_finish_fun : sim (finish_fun_declaration t1 oc d1) (finish_fun_declaration t2 oc d2).
Proof. unfold finish_fun_declaration. sims. Qed.
Lemma sim_methods n : forall n' k acc, sim (method_loop t1 oc d1 n k acc) (method_loop t2 oc d2 n' k acc).
Proof. pose proof sim_finish_fun. induction n as [|n IH]; intros [|n'] k acc; cbn [method_loop]; sims. Qed.
Lemma sim_finish_class : sim (finish_class_declaration t1 oc d1) (finish_class_declaration t2 oc d2).
Proof. pose proof (sim_methods (loop_fuel t1)). unfold finish_class_declaration. sims. Qed.
Lemma sim_break l : sim (finish_break_statement t1 oc l) (finish_break_statement t2 oc l).
Proof. unfold finish_break_statement. sims. Qed.
Lemma sim_continue l : sim (finish_continue_statement t1 oc l) (finish_continue_statement t2 oc l).
Proof. unfold finish_continue_statement. sims. Qed.
Definition body_as (t : list token) (d st : P stmt) : P stmt :=
  pdo incr_loops ;;
  plet b <- gets (fun s => check_st t Terminator s || check_st t LeftBrace s) ;;
  if (b : bool) then
    plet k <- consume_begin_block t oc "Expect '{' or indent before loop body." ;;
    counted (plet b <- finish_block t oc d k ;; pret (SBlock b))
  else counted st.
Lemma body_is t d st s : loop_body_statement t oc st d s = body_as t d st s.
Proof.
  unfold loop_body_statement, body_as, pbind, incr_loops, gets, pret, counted.
  destruct (check_st t Terminator _ || check_st t LeftBrace _); [|reflexivity].
  destruct (consume_begin_block t oc _ _); reflexivity.
Qed.
Lemma sim_counted f g : sim f g -> sim (counted f) (counted g).
Proof.
  intros H s L. specialize (H s L). unfold counted. destruct (f s) as [a r|c r|w|], (g s) as [a' r'|c' r'|w'|]; cbn in H |- *; auto; try contradiction.
  - destruct H as (-> & -> & C). unfold decr_loops_st. destruct (loops r'); cbn; auto.
  - destruct (decr_loops_st r); cbn; auto.
  - destruct H as (Se & -> & C). unfold decr_loops_st. destruct (loops r'); cbn; auto.
  - destruct (decr_loops_st r); cbn; auto.
  - destruct (decr_loops_st r'); cbn; auto.
  - destruct (decr_loops_st r'); cbn; auto.
Qed.
Lemma sim_incr : sim incr_loops incr_loops.
Proof. intros s L. cbn. auto. Qed.
Lemma sim_body : sim (loop_body_statement t1 oc s1 d1) (loop_body_statement t2 oc s2 d2).
Proof.
  intros s. rewrite !body_is. revert s. change (sim (body_as t1 d1 s1) (body_as t2 d2 s2)). unfold body_as.
  apply sim_bind; [apply sim_incr|intros _]. apply sim_bind; [sims|intros [|]]; [|now apply sim_counted].
  apply sim_bind; [sims|intros k]. apply sim_counted. sims.
Qed.
Ltac sim_leaf11 :=
  lazymatch goal with
  | |- sim (expression_statement _ _ _ _ _) _ => apply sim_expression_statement
  | |- sim (finish_var_declaration _ _ _ _ _) _ => apply sim_finish_var
  | |- sim (finish_fun_declaration _ _ _) _ => apply sim_finish_fun
  | |- sim (finish_class_declaration _ _ _) _ => apply sim_finish_class
  | |- sim (finish_break_statement _ _ _) _ => apply sim_break
  | |- sim (finish_continue_statement _ _ _) _ => apply sim_continue
  | |- sim (loop_body_statement _ _ _ _) _ => apply sim_body
  | |- _ => sim_leaf10
  end.
Ltac sim_leaf ::= sim_leaf11.
Lemma sim_for : sim (finish_for_statement t1 trailing oc e1 s1 d1) (finish_for_statement t2 trailing oc e2 s2 d2).
Proof. unfold finish_for_statement. sims. Qed.
Lemma sim_finish_if : sim (finish_if_statement t1 oc e1 s1 d1) (finish_if_statement t2 oc e2 s2 d2).
Proof. unfold finish_if_statement. sims. Qed.
Lemma sim_print : sim (finish_print_statement t1 oc e1 d1) (finish_print_statement t2 oc e2 d2).
Proof. unfold finish_print_statement. sims. Qed.
Lemma sim_return l : sim (finish_return_statement t1 oc e1 d1 l) (finish_return_statement t2 oc e2 d2 l).
Proof. unfold finish_return_statement. sims. Qed.
Lemma sim_while : sim (finish_while_statement t1 oc e1 s1 d1) (finish_while_statement t2 oc e2 s2 d2).
Proof. unfold finish_while_statement. sims. Qed.
Lemma sim_statement : sim (statement t1 trailing oc e1 s1 d1) (statement t2 trailing oc e2 s2 d2).
Proof. pose proof sim_for. pose proof sim_finish_if. pose proof sim_print. pose proof sim_return. pose proof sim_while. unfold statement. sims. Qed.

Lemma sim_declaration : sim (declaration t1 trailing oc e1 s1 d1) (declaration t2 trailing oc e2 s2 d2).
Proof.
  pose proof sim_finish_fun. pose proof sim_finish_class. pose proof (sim_finish_var false). pose proof sim_statement.
  unfold declaration. sims.
Qed.
End Knot.

Lemma sim_level n : forall n', sim (k_expr (level t1 trailing oc n)) (k_expr (level t2 trailing oc n')) /\
  sim (k_stmt (level t1 trailing oc n)) (k_stmt (level t2 trailing oc n')) /\
  sim (k_decl (level t1 trailing oc n)) (k_decl (level t2 trailing oc n')).
Proof.
  induction n as [|n IH]; intros n'; [repeat apply conj; apply sim_fuel|].
  destruct n' as [|n']; [repeat apply conj; apply sim_fuel2|]. destruct (IH n') as (E & St & D). cbn [level k_expr k_stmt k_decl].
  repeat apply conj; [now apply sim_expression|now apply sim_statement|now apply sim_declaration].
Qed.

Lemma sim_sync_loop n : forall n', sim (synchronize_loop t1 oc n) (synchronize_loop t2 oc n').
Proof.
  induction n as [|n IH]; intros n' s L.
  - cbn [synchronize_loop]. destruct n'; cbn [synchronize_loop]; rewrite <- end_same by auto; destruct (is_at_end t1 s); cbn; auto.
  - destruct n' as [|n']; cbn [synchronize_loop]; rewrite <- end_same by auto; destruct (is_at_end t1 s); try (cbn; auto; fail).
    + apply (sim_fuel2 _ s L).
    + refine (sim_bind _ _ _ _ sim_previous _ s L). intros q. destruct (match q with Some t => _ | None => _ end); [apply sim_ret|].
      apply sim_bind; [apply sim_advance|]. intros _. apply IH.
Qed.
Lemma sim_synchronize : sim (synchronize t1 oc) (synchronize t2 oc).
Proof. unfold synchronize. apply sim_bind; [apply sim_advance|]. intros _. apply sim_sync_loop. Qed.

Definition agree (x y : outcome (list stmt * list cause * pstate)) : Prop :=
  match x, y with
  | Done (sts, es, u), Done (sts', es', v) => sts = sts' /\ Forall2 same_error es es' /\ u = v
  | Done _, (Panicked _ | Diverged) => False
  | _, _ => True
  end.
Lemma agree_out x : agree x OutOfFuel.
Proof. destruct x as [[[? ?] ?]| | |]; exact I. Qed.
Lemma loop_same n : forall n' sts errs errs' s, cur s <= p -> Forall2 same_error errs errs' ->
  agree (parse_loop t1 trailing oc n sts errs s) (parse_loop t2 trailing oc n' sts errs' s).
Proof.
  induction n as [|n IH]; intros [|n'] sts errs errs' s L Er; cbn [parse_loop]; rewrite <- end_same by auto; destruct (is_at_end t1 s);
    try (cbn [agree]; auto; fail); [apply agree_out|].
  destruct (sim_level (nesting_fuel t1) (nesting_fuel t2)) as (_ & _ & D). specialize (D s L).
  destruct (k_decl (level t1 trailing oc (nesting_fuel t1)) s) as [d u|c u|w|], (k_decl (level t2 trailing oc (nesting_fuel t2)) s) as [d' u'|c' u'|w'|];
    cbn in D; try contradiction; try exact I; try apply agree_out.
  - destruct D as (-> & -> & C). now apply IH.
  - destruct D as (E & -> & C). pose proof (sim_synchronize u' C) as Y.
    destruct (synchronize t1 oc u') as [x v|x v|w|], (synchronize t2 oc u') as [x' v'|x' v'|w'|]; cbn in Y; try contradiction; try exact I; try apply agree_out.
    + destruct Y as (_ & -> & C'). apply IH; auto. apply Forall2_app; auto.
Qed.
Lemma missing_end r : parse_tokens X trailing oc = Done r ->
  exists es, r = Err (es ++ [mkCause (tloc last) None "Expected end of file"]) /\
    match parse_tokens (X ++ [eof]) trailing oc with
    | Done (Ok _) => es = nil
    | Done (Err es') => es <> nil /\ Forall2 same_error es es'
    | _ => False
    end.
Proof.
  intros H. unfold parse_tokens in H |- *.
  pose proof (loop_same (loop_fuel t1) (loop_fuel t2) nil nil nil (mkP 0 0) (Nat.le_0_l _) (Forall2_nil _)) as A.
  assert (St2 : first_eof t2 = p) by (apply first_split; auto).
  assert (St1 : first_eof t1 = p).
  { destruct (first_cases t1) as [(_ & _ & Q)|(t & pre & post & _ & Q & R & _)]; auto.
    exfalso. rewrite Forall_forall in NoEof. apply (NoEof t); auto. rewrite R. apply in_or_app. right. now left. }
  pose proof (loop_goes t1 trailing oc _ (first_before t1) (first_here t1) (loop_fuel t1) nil nil (mkP 0 0) (Nat.le_0_l _)) as G1.
  pose proof (loop_goes t2 trailing oc _ (first_before t2) (first_here t2) (loop_fuel t2) nil nil (mkP 0 0) (Nat.le_0_l _)) as G2.
  rewrite St1 in G1. rewrite St2 in G2. cbn [cur] in G1, G2.
  specialize (G1 ltac:(unfold loop_fuel; lia)). specialize (G2 ltac:(unfold loop_fuel; rewrite app_length; lia)).
  destruct (parse_loop t1 trailing oc (loop_fuel t1) nil nil (mkP 0 0)) as [[[sts es] u]| | |]; cbn [obind] in H; try discriminate.
  destruct (parse_loop t2 trailing oc (loop_fuel t2) nil nil (mkP 0 0)) as [[[sts' es'] u']| | |]; cbn [agree] in A; try contradiction.
  destruct A as (-> & Er & ->). cbn [obind].
  assert (consume t1 oc Eof "Expected end of file" u' = PErr (mkCause (tloc last) None "Expected end of file") u') as C1.
  { unfold consume, consume_any_of, matches. unfold pbind, gets. destruct (peek_none u' G1) as [N _]. rewrite N. cbn. unfold error_from_peek, pbind, gets.
    rewrite N. destruct (last_loc u' G1) as [-> _]. reflexivity. }
  assert (exists x, consume t2 oc Eof "Expected end of file" u' = POk x u') as [x C2].
  { unfold consume, consume_any_of, matches. unfold pbind, gets. destruct (peek_none u' G1) as [_ N]. rewrite N, IsEof. cbn.
    unfold advance_st, is_at_end. rewrite N, IsEof. cbn. eauto. }
  rewrite C1 in H. rewrite C2. injection H as <-. exists es. split; [reflexivity|].
  inversion Er; subst; auto. split; [discriminate|]. exact Er.
Qed.
End Missing.
