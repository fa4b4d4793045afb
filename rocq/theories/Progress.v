(** The parser on any vector of tokens: it ends, and it never goes past the first end-of-file token. *)
From Verif Require Import Base F64 Token Ast Scanner Parser.
From Coq Require Import Lia.

Section Progress.
Variable toks : list token.
Variables trailing oc : bool.
(** Where the parser must stop: the first end-of-file token, or the end of the vector. *)
Variable stop : nat.
Hypothesis Before : forall i, i < stop -> exists t, nth_error toks i = Some t /\ t_type t <> Eof.
Hypothesis Here : forall l, is_at_end toks (mkP stop l) = true.

Lemma stop_length : stop <= length toks.
Proof.
  destruct stop as [|n]; [lia|]. destruct (Before n) as (t & E & _); [lia|].
  assert (n < length toks) by (apply nth_error_Some; congruence). lia.
Qed.
Lemma type_same a b : tt_eqb a b = true -> a = b.
Proof. destruct a; destruct b; (reflexivity || discriminate). Qed.
Lemma type_other a b : a <> b -> tt_eqb a b = false.
Proof. intros N. destruct (tt_eqb a b) eqn:Q; auto. now apply type_same in Q. Qed.
Lemma at_end s : cur s <= stop -> is_at_end toks s = true -> cur s = stop.
Proof.
  intros L Q. destruct (Nat.eq_dec (cur s) stop) as [|N]; auto. exfalso. destruct (Before (cur s)) as (t & E & K); [lia|].
  unfold is_at_end, peek in Q. rewrite E in Q. now apply type_same in Q.
Qed.
Lemma not_at_end s : cur s <= stop -> is_at_end toks s = false -> cur s < stop.
Proof.
  intros L Q. destruct (Nat.eq_dec (cur s) stop) as [N|]; [|lia]. destruct s as [c l]. cbn in N. subst. rewrite Here in Q. discriminate.
Qed.
Lemma advance_in s : cur s <= stop ->
  advance_st toks s = s /\ cur s = stop \/ advance_st toks s = mkP (cur s + 1) (loops s) /\ cur s < stop.
Proof.
  intros L. unfold advance_st. destruct (is_at_end toks s) eqn:Q; [left|right]; split; auto using at_end, not_at_end.
Qed.
Lemma peek_in s t : cur s <= stop -> peek toks s = Some t -> t_type t <> Eof -> cur s < stop /\ is_at_end toks s = false.
Proof.
  intros L Q N. assert (is_at_end toks s = false) by (unfold is_at_end; rewrite Q; now apply type_other).
  split; auto. now apply not_at_end.
Qed.

(** [pr n N f]: with fewer than [N] tokens left [f] does not run out of fuel, does not go back, does not pass
    [stop], and if it succeeds has read [n] tokens; [n] may depend on the state it starts in. *)
Definition pr {A} (n : pstate -> nat) (N : nat) (f : P A) : Prop := forall s, cur s <= stop -> stop - cur s < N ->
  match f s with
  | POk _ s1 => cur s + n s <= cur s1 /\ cur s1 <= stop
  | PErr _ s1 => cur s <= cur s1 /\ cur s1 <= stop
  | PPanic _ => True
  | PFuel => False
  end.
Definition z (s : pstate) := 0.
Definition o (s : pstate) := 1.
Ltac zlia := unfold z, o in *; Lia.lia.
(** An expression reads a token, except before [this :]. *)
Definition e (s : pstate) : nat := match peek toks s with Some t => if tt_eqb (t_type t) This then 0 else 1 | None => 1 end.
Lemma e_one s : e s <= 1. Proof. unfold e. destruct (peek toks s) as [t|]; auto. destruct (tt_eqb _ _); auto. Qed.

Class small (n : pstate -> nat) : Prop := is_small : forall s, n s <= 1.
Lemma small_z : small z. Proof. intros s. cbv. zlia. Qed.
Lemma small_o : small o. Proof. intros s. cbv. zlia. Qed.
Lemma small_e : small e. Proof. exact e_one. Qed.

Lemma pr_weak {A} n n' N N' (f : P A) : pr n N f -> (forall s, n' s <= n s) -> N' <= N -> pr n' N' f.
Proof.
  intros H M L s C R. specialize (H s C ltac:(zlia)). specialize (M s). destruct (f s); auto; zlia.
Qed.
Lemma pr_cap {A} n N (f : P A) : (forall M, M <= N -> M <= S stop -> pr n M f) -> pr n N f.
Proof. intros H s C R. apply (H (Nat.min N (S stop)) ltac:(zlia) ltac:(zlia) s C). zlia. Qed.
Lemma pr_ret {A} N (a : A) : pr z N (pret a).
Proof. intros s C R. cbn. unfold z. zlia. Qed.
Lemma pr_fail {A} n N c : pr n N (@pfail A c).
Proof. intros s C R. cbn. unfold z. zlia. Qed.
Lemma pr_panic {A} n N w : pr n N (@ppanic A w).
Proof. intros s C R. cbn. auto. Qed.
Lemma pr_gets {A} N (f : pstate -> A) : pr z N (gets f).
Proof. intros s C R. cbn. unfold z. zlia. Qed.
Lemma pr_bind1 {A B} n N (f : P A) (h : A -> P B) : small n -> pr o N f -> (forall a, pr z (N - 1) (h a)) -> pr n N (pbind f h).
Proof.
  intros K F H s C R. specialize (F s C R). specialize (K s). unfold pbind. destruct (f s) as [a u|c u|w|]; auto.
  unfold o in F. specialize (H a u ltac:(zlia) ltac:(zlia)). unfold z in H. destruct (h a u); auto; zlia.
Qed.
Lemma pr_bindE {A B} n N (f : P A) (h : A -> P B) : pr n N f -> (forall a, pr z N (h a)) -> pr n N (pbind f h).
Proof.
  intros F H s C R. specialize (F s C R). unfold pbind. destruct (f s) as [a u|c u|w|]; auto.
  specialize (H a u ltac:(zlia) ltac:(zlia)). unfold z in H. destruct (h a u); auto; zlia.
Qed.
Lemma pr_bind0 {A B} N (f : P A) (h : A -> P B) : pr z N f -> (forall a, pr o N (h a)) -> pr o N (pbind f h).
Proof.
  intros F H s C R. specialize (F s C R). unfold pbind. destruct (f s) as [a u|c u|w|]; auto.
  unfold z in F. specialize (H a u ltac:(zlia) ltac:(zlia)). unfold o in *. destruct (h a u); auto; zlia.
Qed.
Lemma pr_bindX {A B} n N (f : P A) (h : A -> P B) : pr z N f -> (forall a m, pr m N (h a)) -> pr n N (pbind f h).
Proof.
  intros F H s C R. specialize (F s C R). unfold pbind. destruct (f s) as [a u|c u|w|]; auto.
  specialize (H a (fun _ => S stop) u ltac:(zlia) ltac:(zlia)). destruct (h a u); auto; zlia.
Qed.
Lemma pr_getsbind {A B} n N (f : pstate -> A) (h : A -> P B) : (forall a, pr n N (h a)) -> pr n N (pbind (gets f) h).
Proof. intros H s C R. exact (H (f s) s C R). Qed.
Lemma pr_advance N : pr z N (advance toks).
Proof. intros s C R. unfold advance, z. destruct (advance_in s C) as [[-> ?]|[-> ?]]; cbn; zlia. Qed.

(** ** Reading a token *)
Lemma pr_matches {B} n N ks (h : option (token_type * source_loc) -> P B) : tt_mem Eof ks = false -> small n ->
  (forall r, pr z (N - 1) (h (Some r))) -> pr n N (h None) -> pr n N (pbind (matches toks ks) h).
Proof.
  intros NE K H1 H0 s C R. unfold matches, pbind, gets. destruct (peek toks s) as [t|] eqn:Q; [|exact (H0 s C R)].
  destruct (tt_mem (t_type t) ks) eqn:M; [|exact (H0 s C R)]. unfold advance, pret, advance_st.
  assert (t_type t <> Eof) as NT by congruence. destruct (peek_in s t C Q NT) as [L ->].
  specialize (H1 (t_type t, tloc t) (mkP (cur s + 1) (loops s)) ltac:(cbn; zlia) ltac:(cbn; zlia)). cbn [cur] in H1. specialize (K s).
  unfold z in H1. destruct (h _ _); auto; zlia.
Qed.
Lemma pr_match_token {B} n N k (h : bool -> P B) : tt_eqb k Eof = false -> small n ->
  pr z (N - 1) (h true) -> pr n N (h false) -> pr n N (pbind (match_token toks k) h).
Proof.
  intros NE K H1 H0 s C R. unfold match_token, check, pbind, gets. destruct (check_st toks k s) eqn:Q; [|exact (H0 s C R)].
  unfold check_st in Q. apply andb_true_iff in Q. destruct Q as [Q _]. apply negb_true_iff in Q.
  unfold advance, pret, advance_st. rewrite Q. pose proof (not_at_end s C Q) as L.
  specialize (H1 (mkP (cur s + 1) (loops s)) ltac:(cbn; zlia) ltac:(cbn; zlia)). cbn [cur] in H1. specialize (K s).
  unfold z in H1. destruct (h _ _); auto; zlia.
Qed.
Lemma previous_cases s : (exists q, previous toks oc s = POk q s) \/ exists w, previous toks oc s = PPanic w.
Proof. unfold previous. destruct (cur s); [destruct oc|]; eauto. Qed.
Lemma pr_previous N : pr z N (previous toks oc).
Proof. intros s C R. destruct (previous_cases s) as [(q & ->)|(w & ->)]; cbn; auto; zlia. Qed.
Lemma pr_peek_loc N : pr z N (peek_source_loc toks oc).
Proof.
  unfold peek_source_loc. apply pr_getsbind. intros [t|]; [apply pr_ret|].
  apply pr_bindE; [apply pr_previous|intros; apply pr_ret].
Qed.
(** The errors leave the state alone. *)
Lemma pr_error_last {A} n N m : pr n N (@error_from_last toks oc A m).
Proof.
  intros s C R. unfold error_from_last, previous_source_loc, pbind.
  destruct (previous_cases s) as [(q & Q)|(w & Q)]; rewrite Q; auto. rewrite Q. cbn. zlia.
Qed.
Lemma pr_error_peek {A} n N m : pr n N (@error_from_peek toks oc A m).
Proof.
  intros s C R. unfold error_from_peek, peek_source_loc, pbind, gets. destruct (peek toks s); cbn; [zlia|].
  destruct (previous_cases s) as [(q & ->)|(w & ->)]; cbn; auto; zlia.
Qed.
Lemma pr_consume_any N ks m : tt_mem Eof ks = false -> pr o N (consume_any_of toks oc ks m).
Proof. intros K. apply pr_matches; auto using small_o. intros. apply pr_ret. apply pr_error_peek. Qed.
Lemma pr_consume N k m : tt_eqb k Eof = false -> pr o N (consume toks oc k m).
Proof. intros K. apply pr_consume_any. cbn. rewrite orb_false_r. destruct k; try reflexivity. discriminate. Qed.
Lemma pr_identifier N m : pr o N (consume_identifier toks oc m).
Proof.
  intros s C R. unfold consume_identifier, pbind, gets. destruct (peek toks s) as [t|] eqn:Q; [|exact (pr_error_peek o N m s C R)].
  destruct (tt_eqb (t_type t) Identifier) eqn:M; [|exact (pr_error_peek o N m s C R)].
  apply type_same in M. assert (t_type t <> Eof) as NT by (rewrite M; discriminate). destruct (peek_in s t C Q NT) as [L X].
  unfold advance, advance_st. rewrite X. cbn. unfold o. zlia.
Qed.
Lemma pr_begin N m : pr o N (consume_begin_block toks oc m).
Proof.
  apply pr_matches; auto using small_o; [|apply pr_error_peek]. intros [k l]. destruct k; try apply pr_panic; try apply pr_ret.
  apply pr_bind1; [apply small_z|now apply pr_consume|intros; apply pr_ret].
Qed.
Lemma pr_end N k m : tt_eqb k Eof = false -> pr o N (consume_end_block toks oc k m).
Proof.
  intros K. apply pr_matches; auto using small_o.
  - cbn. rewrite orb_false_r. destruct k; try reflexivity. discriminate.
  - intros. apply pr_ret.
  - destruct k; try apply pr_panic; apply pr_error_peek.
Qed.

(** What begins a block says how it ends. *)
Lemma pr_begin_bind {B} n N m (h : token_type -> P B) : small n ->
  (forall k, k = Outdent \/ k = RightBrace -> pr z (N - 1) (h k)) -> pr n N (pbind (consume_begin_block toks oc m) h).
Proof.
  intros K H s C R. assert (F := pr_begin N m s C R). unfold pbind at 1.
  assert (forall k u, consume_begin_block toks oc m s = POk k u -> k = Outdent \/ k = RightBrace) as G.
  { unfold consume_begin_block, pbind at 1. intros k u. destruct (matches _ _ _) as [[[q l]|]| | |]; try discriminate.
    - destruct q; try discriminate; [unfold pbind; destruct (consume _ _ _ _ _); try discriminate|]; unfold pret; intros Q;
      injection Q as <- _; auto.
    - unfold error_from_peek, pbind. destruct (gets _ _); try discriminate. destruct (peek_source_loc _ _ _); discriminate. }
  destruct (consume_begin_block toks oc m s) as [k u| | |]; auto. specialize (G k u eq_refl). unfold o in F. specialize (K s).
  specialize (H k G u ltac:(zlia) ltac:(zlia)). unfold z in H. destruct (h k u); auto; zlia.
Qed.
Ltac pr_leaf := fail.
Ltac side := first [reflexivity | exact small_z | exact small_o | exact small_e].
Ltac pr_step :=
  lazymatch goal with
  | |- pr z _ (pret _) => apply pr_ret
  | |- pr _ _ (pfail _) => apply pr_fail
  | |- pr _ _ (ppanic _) => apply pr_panic
  | |- pr z _ (gets _) => apply pr_gets
  | |- pr z _ (check _ _) => apply pr_gets
  | |- pr z _ (advance _) => apply pr_advance
  | |- pr _ _ (error_from_last _ _ _) => apply pr_error_last
  | |- pr _ _ (error_from_peek _ _ _) => apply pr_error_peek
  | |- pr z _ (peek_source_loc _ _) => apply pr_peek_loc
  | |- pr o _ (consume_any_of _ _ _ _) => apply pr_consume_any; reflexivity
  | |- pr o _ (consume _ _ _ _) => apply pr_consume; reflexivity
  | |- pr o _ (consume_identifier _ _ _) => apply pr_identifier
  | |- pr o _ (consume_begin_block _ _ _) => apply pr_begin
  | |- pr _ _ (pbind (matches _ _) _) => apply pr_matches; [reflexivity|side|intros ?|]
  | |- pr _ _ (pbind (match_token _ _) _) => apply pr_match_token; [reflexivity|side| |]
  | |- pr _ _ (pbind (gets _) _) => apply pr_getsbind; intros ?
  | |- pr _ _ (pbind (check _ _) _) => apply pr_getsbind; intros ?
  | |- pr _ _ (pbind (consume_any_of _ _ _ _) _) => apply pr_bind1; [side| |intros ?]
  | |- pr _ _ (pbind (consume _ _ _ _) _) => apply pr_bind1; [side| |intros ?]
  | |- pr _ _ (pbind (consume_identifier _ _ _) _) => apply pr_bind1; [side| |intros ?]
  | |- pr _ _ (pbind (consume_begin_block _ _ _) _) => apply pr_begin_bind; [side|intros ? ?]
  | |- pr z _ (pbind (advance _) _) => apply pr_bindE; [|intros ?]
  | |- pr z _ (pbind (peek_source_loc _ _) _) => apply pr_bindE; [|intros ?]
  | |- pr _ _ (if negb true then _ else _) => cbn [negb]
  | |- pr _ _ (if negb false then _ else _) => cbn [negb]
  | |- pr _ _ (if true then _ else _) => cbv iota
  | |- pr _ _ (if false then _ else _) => cbv iota
  | |- pr _ _ (if ?b then _ else _) => destruct b
  | |- pr _ _ (match ?x with _ => _ end) => destruct x
  | |- _ => pr_leaf
  end.
Ltac prs := repeat (pr_step || (progress cbv beta zeta)).

(** ** Loops and recursion *)
Section Knot.
Variables er : P expr.
Variables sr dr : P stmt.
Variable M : nat.
Hypothesis HE : pr e M er.
Hypothesis HS : pr o M sr.
Hypothesis HD : pr o M dr.

Lemma z_o s : z s <= o s. Proof. cbv. zlia. Qed.
Lemma z_e s : z s <= e s. Proof. unfold z. zlia. Qed.
Lemma e_o s : e s <= o s. Proof. apply e_one. Qed.
Lemma z_z s : z s <= z s. Proof. zlia. Qed.
Ltac weak := first [exact z_o | exact z_e | exact e_o | exact z_z].
Lemma er_z N : N <= M -> pr z N er. Proof. intros L. apply (pr_weak e z M N); auto. intros. unfold z. zlia. Qed.
Lemma dr_o N : N <= M -> pr o N dr. Proof. intros L. apply (pr_weak o o M N); auto. Qed.
Lemma sr_z N : N <= M -> pr z N sr. Proof. intros L. apply (pr_weak o z M N); auto. intros. unfold z. zlia. Qed.
Lemma fuel_enough : S stop <= loop_fuel toks. Proof. pose proof stop_length. unfold loop_fuel. zlia. Qed.

Ltac pr_leaf1 :=
  lazymatch goal with
  | |- pr z _ er => apply er_z; zlia
  | |- pr z _ sr => apply sr_z; zlia
  | |- pr _ _ (pbind er _) => apply pr_bindE; [|intros ?]
  | |- pr _ _ (pbind sr _) => apply pr_bindE; [|intros ?]
  | |- pr _ _ (pbind (if _ then _ else _) _) => apply pr_bindE; [|intros ?]
  end.
Ltac pr_leaf ::= pr_leaf1.

Lemma pr_block k n : forall N acc, N <= n -> N <= M -> pr z N (block_loop toks dr n k acc).
Proof.
  induction n as [|n IH]; intros N acc L1 L2; cbn [block_loop].
  - intros s C R. zlia.
  - prs. apply pr_bind1; [side|apply dr_o; zlia|]. intros d. apply IH; zlia.
Qed.
Lemma pr_finish_block k N : k = Outdent \/ k = RightBrace -> N <= M -> pr z N (finish_block toks oc dr k).
Proof.
  intros K L. unfold finish_block. apply pr_bindE.
  - apply pr_cap. intros N' L1 L2. pose proof fuel_enough. apply pr_block; zlia.
  - intros b. apply pr_bind1; [side| |intros; apply pr_ret]. apply pr_end. destruct K; subst; reflexivity.
Qed.
Lemma pr_param n : forall N acc, N <= n -> pr z N (param_loop toks oc n acc).
Proof.
  induction n as [|n IH]; intros N acc L; cbn [param_loop].
  - intros s C R. zlia.
  - prs. apply IH; zlia.
Qed.
Lemma pr_function l N : N <= S M -> pr o N (function_definition toks oc dr l).
Proof.
  intros L. unfold function_definition. prs.
  - apply pr_cap. intros N' L1 L2. pose proof fuel_enough. apply pr_param; zlia.
  - apply pr_bindE; [|intros; apply pr_ret]. apply pr_finish_block; auto. zlia.
Qed.
Lemma pr_map n : forall N m, N <= n -> N <= S M -> pr z N (literal_map_loop toks oc er n m).
Proof.
  induction n as [|n IH]; intros N m L1 L2; cbn [literal_map_loop].
  - intros s C R. zlia.
  - prs; try (apply pr_bindE; [|intros ?]); prs. apply IH; zlia.
Qed.
Lemma pr_literal_map N : N <= S M -> pr z N (literal_map toks oc er).
Proof. intros L. apply pr_cap. intros N' L1 L2. pose proof fuel_enough. apply pr_map; zlia. Qed.
Lemma pr_array n : forall N acc, N <= n -> N <= M -> pr z N (array_loop toks er n acc).
Proof.
  induction n as [|n IH]; intros N acc L1 L2; cbn [array_loop].
  - intros s C R. zlia.
  - prs. apply IH; zlia.
Qed.
Lemma pr_args n : forall N acc, N <= n -> N <= M -> pr e N (args_loop toks oc er n acc).
Proof.
  induction n as [|n IH]; intros N acc L1 L2; cbn [args_loop].
  - intros s C R. zlia.
  - destruct (255 <=? length acc); prs; [apply (pr_weak e e M N); auto|].
    apply (pr_weak e z (N - 1)); [apply IH; zlia|weak|zlia].
Qed.
Lemma pr_args_fuel N : N <= M -> pr e N (args_loop toks oc er (loop_fuel toks) nil).
Proof. intros L. apply pr_cap. intros N' L1 L2. pose proof fuel_enough. apply pr_args; zlia. Qed.
Lemma pr_array_fuel N : N <= M -> pr z N (array_loop toks er (loop_fuel toks) nil).
Proof. intros L. apply pr_cap. intros N' L1 L2. pose proof fuel_enough. apply pr_array; zlia. Qed.
Lemma pr_finish_call x l N : N <= M -> pr z N (finish_call toks oc er x l).
Proof.
  intros L. unfold finish_call. prs. apply (pr_weak e z N); [apply pr_args_fuel; zlia|weak|zlia].
Qed.
Lemma pr_juxtaposed x l N : N <= M -> pr e N (finish_call_without_parens toks oc er x l).
Proof. intros L. unfold finish_call_without_parens. apply pr_bindE; [now apply pr_args_fuel|intros; apply pr_ret]. Qed.
Lemma pr_index x l N : N <= M -> pr z N (finish_get_index toks oc er x l).
Proof. intros L. unfold finish_get_index. prs. Qed.

(** The token that is looked at is read, unless it is the last. *)
Definition ahead (s : pstate) (t : token) : Prop := peek toks s = Some t.
Lemma read_one {B} N t (h : P B) s : cur s <= stop -> stop - cur s < N -> peek toks s = Some t -> t_type t <> Eof ->
  pr z (N - 1) h ->
  match (pbind (advance toks) (fun _ => h)) s with
  | POk _ s1 => cur s + 1 <= cur s1 /\ cur s1 <= stop
  | PErr _ s1 => cur s <= cur s1 /\ cur s1 <= stop
  | PPanic _ => True
  | PFuel => False
  end.
Proof.
  intros C R Q NT H. destruct (peek_in s t C Q NT) as [L X]. unfold pbind, advance, advance_st. rewrite X.
  specialize (H (mkP (cur s + 1) (loops s)) ltac:(cbn; zlia) ltac:(cbn; zlia)). cbn [cur] in H. unfold z in H. destruct (h _); auto; zlia.
Qed.
Lemma map_reads N : N <= S M -> pr (fun s => if check_any_of_st toks [Identifier; TString] s && check_next_st toks Colon s then 1 else 0) N (literal_map toks oc er).
Proof.
  intros L. apply pr_cap. intros N' L1 L2 s C R. unfold literal_map. assert (G := fuel_enough).
  destruct (loop_fuel toks) as [|n] eqn:F; [zlia|]. cbn [literal_map_loop].
  unfold pbind at 1, gets at 1. destruct (check_any_of_st toks [Identifier; TString] s && check_next_st toks Colon s); cbn [negb].
  2:{ cbn. zlia. }
  match goal with |- match ?f s with _ => _ end => cut (pr o N' f); [intros H; exact (H s C R)|] end.
  apply pr_getsbind. intros [t|]; [|apply pr_panic]. cbv zeta. apply pr_bind0; [prs|intros key].
  apply pr_bind0; [apply pr_advance|intros _]. apply pr_bind1; [side|apply pr_consume; reflexivity|intros _].
  prs. apply pr_map; zlia.
Qed.

Definition good {A} (s : pstate) (n : nat) (r : pres A) : Prop :=
  match r with
  | POk _ s1 => cur s + n <= cur s1 /\ cur s1 <= stop
  | PErr _ s1 => cur s <= cur s1 /\ cur s1 <= stop
  | PPanic _ => True
  | PFuel => False
  end.
Lemma good_weak {A} s n n' (r : pres A) : good s n r -> n' <= n -> good s n' r.
Proof. unfold good. destruct r; auto. lia. Qed.
Lemma pr_good {A} n N (f : P A) s : pr n N f -> cur s <= stop -> stop - cur s < N -> good s (n s) (f s).
Proof. intros H C R. exact (H s C R). Qed.
Lemma good_read {B} N t (h : P B) s n : cur s <= stop -> stop - cur s < N -> peek toks s = Some t -> t_type t <> Eof ->
  n <= 1 -> pr z (N - 1) h -> good s n ((pbind (advance toks) (fun _ => h)) s).
Proof. intros C R Q NT L H. apply (good_weak s 1); auto. exact (read_one N t h s C R Q NT H). Qed.
Lemma e_this s t : peek toks s = Some t -> t_type t = This -> e s = 0.
Proof. intros Q K. unfold e. now rewrite Q, K. Qed.
Lemma map_good s t : cur s <= stop -> stop - cur s < S M -> peek toks s = Some t ->
  tt_mem (t_type t) [Identifier; TString] = true -> check_next_st toks Colon s = true ->
  good s 1 ((plet m <- literal_map toks oc er ;; pret (EMap m)) s).
Proof.
  intros C R Q K X.
  pose proof (pr_good _ (S M) _ s (pr_bindE _ _ _ _ (map_reads (S M) ltac:(zlia)) (fun m => pr_ret _ (EMap m))) C R) as H. cbv beta in H.
  rewrite X in H. unfold check_any_of_st, tok_in in H. rewrite Q, K in H. unfold check_next_st in X. apply andb_true_iff in X.
  destruct X as [X _]. rewrite X in H. exact H.
Qed.
Lemma pr_primary : pr e (S M) (primary toks oc er dr).
Proof.
  intros s C R. change (good s (e s) (primary toks oc er dr s)). unfold primary. unfold pbind at 1, gets at 1.
  destruct (peek toks s) as [t|] eqn:Q; [|exact I]. pose proof (e_one s) as E1.
  destruct (t_type t) eqn:K.
  all: try solve [eapply (good_read (S M)); eauto; [rewrite K; discriminate|prs; try solve
    [ apply pr_error_last | apply pr_bindE; [apply pr_literal_map; lia|intros; prs]
    | apply pr_bindE; [first [apply pr_array_fuel; lia | apply (pr_weak o z (S M)); [apply pr_function; lia|weak|lia]]|intros; prs]]]].
  - eapply (good_read (S M)); eauto; [rewrite K; discriminate|]. prs. apply pr_array_fuel; zlia.
  - unfold pbind at 1, gets at 1. destruct (check_next_st toks Colon s) eqn:X; [|eapply (good_read (S M)); eauto; [rewrite K; discriminate|prs]].
    apply (good_weak s 1); auto. apply (map_good s t); auto. rewrite K. reflexivity.
  - unfold pbind at 1, gets at 1. destruct (check_next_st toks Colon s) eqn:X.
    + apply (good_weak s 1); auto. apply (map_good s t); auto. rewrite K. reflexivity.
    + destruct (t_string t); [|exact I]. eapply (good_read (S M)); eauto; [rewrite K; discriminate|prs].
  - destruct (t_float t); [|exact I]. eapply (good_read (S M)); eauto; [rewrite K; discriminate|prs].
  - unfold pbind at 1, gets at 1. destruct (check_next_st toks Colon s) eqn:X; [|eapply (good_read (S M)); eauto; [rewrite K; discriminate|prs]].
    rewrite (e_this s t Q K). refine (pr_good z (S M) _ s _ C R). apply pr_bindE; [apply pr_literal_map; zlia|intros; prs].
  - refine (pr_good e (S M) _ s _ C R). apply pr_bindX; [apply pr_advance|]. intros. apply pr_error_last.
Qed.

Lemma pr_juxta {A B} N (f : source_loc -> P A) (h : A -> P B) (x : B) : (forall l, pr e N (f l)) -> (forall a, pr z (N - 1) (h a)) ->
  pr z N (plet j <- gets (check_any_of_st toks CALL_PRIMARY_TOKENS) ;;
          if (j : bool) then plet l <- peek_source_loc toks oc ;; plet a <- f l ;; h a else pret x).
Proof.
  intros F H s C R. unfold pbind at 1, gets. destruct (check_any_of_st toks CALL_PRIMARY_TOKENS s) eqn:Q; [|cbn; zlia].
  unfold check_any_of_st, tok_in in Q. apply andb_true_iff in Q. destruct Q as [_ Q].
  destruct (peek toks s) as [t|] eqn:K; [|discriminate].
  unfold peek_source_loc, pbind, gets. rewrite K. unfold pret. specialize (F (tloc t) s C R).
  replace (e s) with 1 in F. 2:{ unfold e. rewrite K. destruct (t_type t); try reflexivity. discriminate. }
  destruct (f (tloc t) s) as [a u|c u|w|]; auto. specialize (H a u ltac:(zlia) ltac:(zlia)).
  destruct (h a u); auto; zlia.
Qed.
Lemma pr_call_loop n : forall N x, N <= n -> N <= M -> pr z N (call_loop toks oc er n x).
Proof.
  induction n as [|n IH]; intros N x L1 L2; cbn [call_loop].
  - intros s C R. zlia.
  - apply pr_matches; [reflexivity|side| |].
    + intros [k l]. destruct k; prs.
      * apply pr_bindE; [apply pr_finish_call; zlia|intros; apply IH; zlia].
      * apply pr_bindE; [apply pr_index; zlia|intros; apply IH; zlia].
      * apply IH; zlia.
    + apply pr_juxta; [intros; apply pr_juxtaposed; zlia|intros; apply IH; zlia].
Qed.
Lemma pr_call_fuel N x : N <= M -> pr z N (call_loop toks oc er (loop_fuel toks) x).
Proof. intros L. apply pr_cap. intros N' L1 L2. pose proof fuel_enough. apply pr_call_loop; zlia. Qed.
(** Nothing goes on after [this :]. *)
Lemma call_this s t x : peek toks s = Some t -> t_type t = This -> call_loop toks oc er (loop_fuel toks) x s = POk x s.
Proof.
  intros Q K. unfold loop_fuel. cbn [call_loop]. unfold pbind at 1. unfold matches, pbind at 1, gets. rewrite Q, K. cbn [tt_mem existsb].
  cbn. unfold pbind, gets, check_any_of_st, tok_in. rewrite Q, K. cbn. rewrite andb_false_r. reflexivity.
Qed.
Lemma pr_call : pr e (S M) (call toks oc er dr).
Proof.
  intros s C R. assert (F := pr_primary s C R). unfold call, pbind.
  destruct (primary toks oc er dr s) as [x u|c u|w|]; auto.
  destruct (Nat.eq_dec (cur u) (cur s)) as [E|E].
  - assert (e s = 0) as Z by zlia. unfold e in Z. destruct (peek toks s) as [t|] eqn:Q; [|discriminate].
    destruct (tt_eqb (t_type t) This) eqn:K; [|discriminate]. apply type_same in K.
    rewrite (call_this u t x); auto. unfold peek in *. now rewrite E.
  - assert (H := pr_call_fuel M x (le_n _) u ltac:(zlia) ltac:(zlia)). pose proof (e_one s).
    destruct (call_loop toks oc er (loop_fuel toks) x u); auto; zlia.
Qed.
Lemma pr_unary_fuel n : forall N, N <= n -> N <= S M -> pr e N (unary_fuel toks oc er dr n).
Proof.
  induction n as [|n IH]; intros N L1 L2; cbn [unary_fuel].
  - intros s C R. zlia.
  - apply pr_matches; [reflexivity|side| |].
    + intros [k l]. apply pr_bindE; [|intros; prs]. apply (pr_weak e z (N - 1)); [apply IH; zlia|weak|zlia].
    + apply (pr_weak e e (S M)); [apply pr_call|auto|zlia].
Qed.
Lemma pr_unary : pr e (S M) (unary toks oc er dr).
Proof. apply pr_cap. intros N' L1 L2. pose proof fuel_enough. apply pr_unary_fuel; zlia. Qed.
(** The loops over operators *)
Ltac operators X :=
  intros N x L1 L2;
  apply pr_bindE; [apply (pr_weak e z (S M)); [apply X|weak|zlia]|intros ?].
Lemma pr_multiplication_loop n : forall N x, N <= n -> N <= S M -> pr z N (multiplication_loop toks oc er dr n x).
Proof.
  induction n as [|n IH]; intros N x L1 L2; cbn [multiplication_loop]; [intros s C R; zlia|].
  apply pr_matches; [reflexivity|side| |prs]. intros [k l].
  apply pr_bindE; [apply (pr_weak e z (S M)); [apply pr_unary|weak|zlia]|intros r]. apply pr_bindE; [prs|intros; apply IH; zlia].
Qed.
Lemma pr_multiplication : pr e (S M) (multiplication toks oc er dr).
Proof.
  apply pr_bindE; [apply pr_unary|]. intros x. apply pr_cap. intros N' L1 L2. pose proof fuel_enough. apply pr_multiplication_loop; zlia.
Qed.
Lemma pr_addition_loop n : forall N x, N <= n -> N <= S M -> pr z N (addition_loop toks oc er dr n x).
Proof.
  induction n as [|n IH]; intros N x L1 L2; cbn [addition_loop]; [intros s C R; zlia|].
  apply pr_matches; [reflexivity|side| |prs]. intros [k l].
  apply pr_bindE; [apply (pr_weak e z (S M)); [apply pr_multiplication|weak|zlia]|intros r]. apply pr_bindE; [prs|intros; apply IH; zlia].
Qed.
Lemma pr_addition : pr e (S M) (addition toks oc er dr).
Proof.
  apply pr_bindE; [apply pr_multiplication|]. intros x. apply pr_cap. intros N' L1 L2. pose proof fuel_enough. apply pr_addition_loop; zlia.
Qed.
Lemma pr_comparison_loop n : forall N x, N <= n -> N <= S M -> pr z N (comparison_loop toks oc er dr n x).
Proof.
  induction n as [|n IH]; intros N x L1 L2; cbn [comparison_loop]; [intros s C R; zlia|].
  apply pr_matches; [reflexivity|side| |prs]. intros [k l].
  apply pr_bindE; [apply (pr_weak e z (S M)); [apply pr_addition|weak|zlia]|intros r]. apply pr_bindE; [prs|intros; apply IH; zlia].
Qed.
Lemma pr_comparison : pr e (S M) (comparison toks oc er dr).
Proof.
  apply pr_bindE; [apply pr_addition|]. intros x. apply pr_cap. intros N' L1 L2. pose proof fuel_enough. apply pr_comparison_loop; zlia.
Qed.
Lemma pr_equality_loop n : forall N x, N <= n -> N <= S M -> pr z N (equality_loop toks oc er dr n x).
Proof.
  induction n as [|n IH]; intros N x L1 L2; cbn [equality_loop]; [intros s C R; zlia|].
  apply pr_matches; [reflexivity|side| |prs]. intros [k l].
  apply pr_bindE; [apply (pr_weak e z (S M)); [apply pr_comparison|weak|zlia]|intros r]. apply pr_bindE; [prs|intros; apply IH; zlia].
Qed.
Lemma pr_equality : pr e (S M) (equality toks oc er dr).
Proof.
  apply pr_bindE; [apply pr_comparison|]. intros x. apply pr_cap. intros N' L1 L2. pose proof fuel_enough. apply pr_equality_loop; zlia.
Qed.
Lemma pr_and_loop n : forall N x, N <= n -> N <= S M -> pr z N (and_loop toks oc er dr n x).
Proof.
  induction n as [|n IH]; intros N x L1 L2; cbn [and_loop]; [intros s C R; zlia|].
  apply pr_match_token; [reflexivity|side| |prs].
  apply pr_bindE; [apply (pr_weak e z (S M)); [apply pr_equality|weak|zlia]|intros r]. apply IH; zlia.
Qed.
Lemma pr_and : pr e (S M) (and_ toks oc er dr).
Proof.
  apply pr_bindE; [apply pr_equality|]. intros x. apply pr_cap. intros N' L1 L2. pose proof fuel_enough. apply pr_and_loop; zlia.
Qed.
Lemma pr_or_loop n : forall N x, N <= n -> N <= S M -> pr z N (or_loop toks oc er dr n x).
Proof.
  induction n as [|n IH]; intros N x L1 L2; cbn [or_loop]; [intros s C R; zlia|].
  apply pr_match_token; [reflexivity|side| |prs].
  apply pr_bindE; [apply (pr_weak e z (S M)); [apply pr_and|weak|zlia]|intros r]. apply IH; zlia.
Qed.
Lemma pr_or : pr e (S M) (or_ toks oc er dr).
Proof.
  apply pr_bindE; [apply pr_and|]. intros x. apply pr_cap. intros N' L1 L2. pose proof fuel_enough. apply pr_or_loop; zlia.
Qed.
Lemma pr_target x r l N : pr z N (assign_target x r l).
Proof. unfold assign_target. prs. Qed.
Lemma pr_expression : pr e (S M) (expression toks oc er dr).
Proof.
  unfold expression, assignment. apply pr_match_token; [reflexivity|side| |].
  - apply pr_bindE.
    + apply pr_bindE; [apply (pr_weak e z (S M)); [apply pr_or|weak|zlia]|intros x]. prs.
    + intros x. prs. apply pr_target.
  - apply pr_bindE; [apply pr_or|]. intros x. prs. apply pr_target.
Qed.
Lemma expression_z N : N <= S M -> pr z N (expression toks oc er dr).
Proof. intros L. apply (pr_weak e z (S M)); [apply pr_expression|weak|auto]. Qed.
Lemma pr_oz {A} N (f : P A) : pr o N f -> pr z N f.
Proof. intros H. apply (pr_weak o z N); auto. weak. Qed.
Ltac pr_leaf2 :=
  lazymatch goal with
  | |- pr z _ (expression _ _ _ _) => apply expression_z; zlia
  | |- pr z _ (pbind (expression _ _ _ _) _) => apply pr_bindE; [|intros ?]
  | |- pr z _ (finish_block _ _ _ _) => apply pr_finish_block; [solve [auto]|zlia]
  | |- pr z _ (pbind (finish_block _ _ _ _) _) => apply pr_bindE; [|intros ?]
  | |- pr z _ (match_token _ _) => unfold match_token
  | |- pr z _ (consume _ _ _ _) => apply pr_oz; apply pr_consume; reflexivity
  | |- _ => pr_leaf1
  end.
Ltac pr_leaf ::= pr_leaf2.

Lemma pr_expression_statement : pr o (S M) (expression_statement toks trailing oc er dr).
Proof.
  intros s C R. assert (F := pr_expression s C R). unfold expression_statement, pbind at 1.
  destruct (expression toks oc er dr s) as [x u|c u|w|]; auto.
  unfold pbind at 1, gets. destruct (negb (trailing && is_at_end toks u) || check_st toks Terminator u) eqn:Nd.
  - match goal with |- match ?f u with _ => _ end => cut (pr o (S M) f) end.
    + intros H. specialize (H u ltac:(zlia) ltac:(zlia)). match goal with |- match ?f u with _ => _ end => destruct (f u) end; auto; zlia.
    + prs.
  - apply orb_false_iff in Nd. destruct Nd as [Nd _]. apply negb_false_iff, andb_true_iff in Nd. destruct Nd as [_ Nd].
    cbn. pose proof (at_end u ltac:(zlia) Nd). split; [|zlia].
    destruct (Nat.eq_dec (cur s) stop) as [Q|Q]; [|zlia].
    assert (e s = 1) as Z; [|zlia]. unfold e. destruct (peek toks s) as [t|] eqn:K; auto.
    assert (is_at_end toks s = true) as At by (destruct s; cbn in *; subst; apply Here).
    unfold is_at_end in At. rewrite K in At. apply type_same in At. rewrite At. reflexivity.
Qed.
Lemma expression_statement_z N : N <= S M -> pr z N (expression_statement toks trailing oc er dr).
Proof. intros L. apply (pr_weak o z (S M)); [apply pr_expression_statement|weak|auto]. Qed.
Lemma pr_finish_var b N : N <= S M -> pr o N (finish_var_declaration toks oc er dr b).
Proof.
  intros L. unfold finish_var_declaration. apply pr_bind1; [side|apply pr_identifier|]. intros [id l].
  prs; try (apply pr_bindE; [|intros ?]); prs.
Qed.
Lemma pr_finish_fun N : N <= S M -> pr o N (finish_fun_declaration toks oc dr).
Proof.
  intros L. unfold finish_fun_declaration. apply pr_bind1; [side|apply pr_identifier|]. intros [id l].
  apply pr_bindE; [|intros; prs]. apply (pr_weak o z (S M)); [apply pr_function; zlia|weak|zlia].
Qed.
Lemma pr_methods k n : forall N acc, N <= n -> N <= S M -> pr z N (method_loop toks oc dr n k acc).
Proof.
  induction n as [|n IH]; intros N acc L1 L2; cbn [method_loop]; [intros s C R; zlia|].
  prs.
  - apply pr_bind1; [side|apply pr_finish_fun; zlia|]. intros f. prs; apply IH; zlia.
  - apply pr_bind1; [side|apply pr_finish_fun; zlia|]. intros f. prs; apply IH; zlia.
Qed.
Lemma pr_finish_class N : N <= S M -> pr o N (finish_class_declaration toks oc dr).
Proof.
  intros L. unfold finish_class_declaration. apply pr_bind1; [side|apply pr_identifier|]. intros [id l].
  apply pr_match_token; [reflexivity|side| |].
  all: apply pr_bindE; [prs|intros sup]; apply pr_begin_bind; [side|]; intros k K.
  all: apply pr_bindE; [apply pr_cap; intros N' L1 L2; pose proof fuel_enough; apply pr_methods; zlia|intros ms].
  all: apply pr_bind1; [side|apply pr_end; destruct K; subst; reflexivity|intros; prs].
Qed.
Lemma pr_break l N : pr z N (finish_break_statement toks oc l).
Proof. unfold finish_break_statement. prs. Qed.
Lemma pr_continue l N : pr z N (finish_continue_statement toks oc l).
Proof. unfold finish_continue_statement. prs. Qed.
Definition counted (body : P stmt) : P stmt := fun s =>
  match body s with
  | POk b s1 => match decr_loops_st s1 with Some s2 => POk b s2 | None => PPanic "attempt to subtract with overflow" end
  | PErr c s1 => match decr_loops_st s1 with Some s2 => PErr c s2 | None => PPanic "attempt to subtract with overflow" end
  | PPanic w => PPanic w
  | PFuel => PFuel
  end.
Lemma pr_counted N f : pr z N f -> pr z N (counted f).
Proof.
  intros H s C R. specialize (H s C R). unfold counted, decr_loops_st. destruct (f s) as [a u|c u|w|]; auto.
  - destruct (loops u); auto.
  - destruct (loops u); auto.
Qed.
Lemma pr_incr N : pr z N incr_loops.
Proof. intros s C R. cbn. zlia. Qed.
Lemma pr_body N : N <= M -> pr z N (loop_body_statement toks oc sr dr).
Proof.
  intros L. unfold loop_body_statement. apply pr_bindE; [apply pr_incr|intros _]. apply pr_getsbind. intros b.
  assert (forall N', N' <= M -> pr z N' (counted sr)) as H1 by (intros; apply pr_counted; apply sr_z; auto).
  intros s C R. unfold pbind at 1. destruct b.
  - assert (H := pr_begin_bind z N "Expect '{' or indent before loop body."
      (fun k => counted (plet x <- finish_block toks oc dr k ;; pret (SBlock x))) small_z
      (fun k K => pr_counted _ _ (pr_bindE _ _ _ _ (pr_finish_block k (N - 1) K ltac:(zlia)) (fun x => pr_ret _ (SBlock x)))) s C R).
    unfold pbind at 1 in H. unfold pbind at 1. destruct (consume_begin_block toks oc _ s); auto.
  - exact (H1 N L s C R).
Qed.
Ltac pr_leaf3 :=
  lazymatch goal with
  | |- pr z _ (pbind (pbind _ _) _) => apply pr_bindE; [|intros ?]
  | |- pr z _ (pbind (pret _) _) => apply pr_bindE; [|intros ?]
  | |- pr z _ (pbind (match _ with _ => _ end) _) => apply pr_bindE; [|intros ?]
  | |- pr z _ (loop_body_statement _ _ _ _) => apply pr_body; zlia
  | |- pr z _ (pbind (loop_body_statement _ _ _ _) _) => apply pr_bindE; [|intros ?]
  | |- pr z _ (expression_statement _ _ _ _ _) => apply expression_statement_z; zlia
  | |- pr z _ (pbind (expression_statement _ _ _ _ _) _) => apply pr_bindE; [|intros ?]
  | |- pr z _ (finish_var_declaration _ _ _ _ _) => apply pr_oz; apply pr_finish_var; zlia
  | |- pr z _ (pbind (finish_var_declaration _ _ _ _ _) _) => apply pr_bindE; [|intros ?]
  | |- _ => pr_leaf2
  end.
Ltac pr_leaf ::= pr_leaf3.
Lemma pr_for N : N <= M -> pr z N (finish_for_statement toks trailing oc er sr dr).
Proof. intros L. unfold finish_for_statement. prs.
Qed.
Lemma pr_if N : N <= M -> pr z N (finish_if_statement toks oc er sr dr).
Proof. intros L. unfold finish_if_statement. prs. Qed.
Lemma pr_print N : N <= M -> pr z N (finish_print_statement toks oc er dr).
Proof. intros L. unfold finish_print_statement. prs. Qed.
Lemma pr_return l N : N <= M -> pr z N (finish_return_statement toks oc er dr l).
Proof. intros L. unfold finish_return_statement. prs. Qed.
Lemma pr_while N : N <= M -> pr z N (finish_while_statement toks oc er sr dr).
Proof. intros L. unfold finish_while_statement. prs. Qed.
Lemma pr_statement : pr o (S M) (statement toks trailing oc er sr dr).
Proof.
  unfold statement. apply pr_matches; [reflexivity|side| |apply pr_expression_statement]. intros [k l].
  replace (S M - 1) with M by zlia.
  destruct k; prs; auto using pr_break, pr_continue, pr_for, pr_if, pr_print, pr_return, pr_while.
Qed.
Lemma pr_declaration : pr o (S M) (declaration toks trailing oc er sr dr).
Proof.
  unfold declaration. apply pr_match_token; [reflexivity|side|apply pr_oz; apply pr_finish_class; zlia|].
  apply pr_getsbind. intros [|].
  - apply pr_bind1; [side|now apply pr_consume|intros _]. apply pr_bindE; [apply pr_oz; apply pr_finish_fun; zlia|intros; prs].
  - apply pr_match_token; [reflexivity|side|prs|apply pr_statement].
Qed.
End Knot.

Lemma pr_level n : pr e n (k_expr (level toks trailing oc n)) /\ pr o n (k_stmt (level toks trailing oc n)) /\
  pr o n (k_decl (level toks trailing oc n)).
Proof.
  induction n as [|n (IE & IS & ID)].
  - repeat apply conj; intros s C R; zlia.
  - cbn [level k_expr k_stmt k_decl]. repeat apply conj.
    + now apply pr_expression.
    + now apply pr_statement.
    + now apply pr_declaration.
Qed.
Lemma nesting_enough s : cur s <= stop -> stop - cur s < nesting_fuel toks.
Proof. intros C. pose proof stop_length. unfold nesting_fuel. lia. Qed.

(** ** Synchronising, and the top level *)
Lemma sync_loop n : forall s, cur s <= stop -> stop - cur s <= n ->
  match synchronize_loop toks oc n s with
  | POk _ u => cur s <= cur u /\ cur u <= stop
  | PErr _ _ | PFuel => False
  | PPanic _ => True
  end.
Proof.
  induction n as [|n IH]; intros s C R; cbn [synchronize_loop].
  - destruct (is_at_end toks s) eqn:Q; [auto|]. apply not_at_end in Q; auto. lia.
  - destruct (is_at_end toks s) eqn:Q; [auto|]. pose proof (not_at_end s C Q) as L. unfold pbind at 1.
    destruct (previous_cases s) as [(q & ->)|(w & ->)]; auto.
    destruct (match q with Some t => _ | None => _ end); [cbn; auto|]. unfold pbind, advance, advance_st. rewrite Q.
    specialize (IH (mkP (cur s + 1) (loops s)) ltac:(cbn; lia) ltac:(cbn; lia)). cbn [cur] in IH.
    destruct (synchronize_loop _ _ _ _); auto. lia.
Qed.
Lemma sync_goes s : cur s <= stop ->
  match synchronize toks oc s with
  | POk _ u => cur u <= stop /\ (cur s < cur u \/ cur s = stop /\ cur u = stop)
  | PErr _ _ | PFuel => False
  | PPanic _ => True
  end.
Proof.
  intros C. unfold synchronize, pbind, advance. pose proof stop_length as L.
  destruct (advance_in s C) as [[-> Q]|[-> Q]].
  - pose proof (sync_loop (S (length toks)) s C ltac:(lia)) as H. destruct (synchronize_loop _ _ _ _); auto. lia.
  - pose proof (sync_loop (S (length toks)) (mkP (cur s + 1) (loops s)) ltac:(cbn; lia) ltac:(cbn; lia)) as H. cbn [cur] in H.
    destruct (synchronize_loop _ _ _ _); auto. lia.
Qed.
Lemma at_stop s : cur s = stop -> is_at_end toks s = true.
Proof. destruct s as [c l]. cbn. intros ->. apply Here. Qed.
Lemma loop_goes n : forall sts errs s, cur s <= stop -> stop - cur s <= n ->
  match parse_loop toks trailing oc n sts errs s with
  | Done (_, _, u) => cur u = stop
  | Panicked _ => True
  | Diverged | OutOfFuel => False
  end.
Proof.
  induction n as [|n IH]; intros sts errs s C R; cbn [parse_loop].
  - destruct (is_at_end toks s) eqn:Q; [now apply at_end|]. apply not_at_end in Q; auto. lia.
  - destruct (is_at_end toks s) eqn:Q; [now apply at_end|]. pose proof (not_at_end s C Q) as L.
    destruct (pr_level (nesting_fuel toks)) as (_ & _ & D). specialize (D s C (nesting_enough s C)). unfold o in D.
    destruct (k_decl _ s) as [d u|c u|w|]; auto.
    + apply IH; lia.
    + pose proof (sync_goes u ltac:(lia)) as H. destruct (synchronize toks oc u) as [x v|x v|w|]; auto.
      destruct H as [H1 [H2|[H2 H3]]]; [apply IH; lia|]. apply IH; lia.
Qed.
Lemma consume_eof_goes s : cur s = stop ->
  match consume toks oc Eof "Expected end of file" s with
  | POk _ u => u = s /\ exists t, nth_error toks stop = Some t
  | PErr _ u => u = s /\ nth_error toks stop = None
  | PPanic _ => oc = true /\ stop = 0 /\ toks = nil
  | PFuel => False
  end.
Proof.
  intros Q. pose proof (at_stop s Q) as A. assert (G : peek toks s = nth_error toks stop) by (unfold peek; now rewrite Q).
  assert (K := A). unfold is_at_end in K. rewrite G in K. unfold consume, consume_any_of, matches, pbind, gets. rewrite G.
  destruct (nth_error toks stop) as [t|] eqn:T.
  - apply type_same in K. rewrite K. cbn. unfold advance_st. rewrite A. cbn. eauto.
  - cbn. unfold error_from_peek, peek_source_loc, pbind, gets. rewrite G. unfold previous. rewrite Q.
    destruct stop as [|n]; [|cbn; auto]. destruct oc; cbn; auto. destruct toks; [auto|discriminate].
Qed.
End Progress.
