(** Running parser functions: no panics, enough fuel, errors at real tokens,
    and what is consumed.  Primitives. *)
From Verif Require Import Base F64 Token Ast Scanner Parser SpecGrammar.
From Verif Require Export SpecParse.
From Coq Require Import Lia.

(** Lists cut at an index. *)
Lemma skipn_nth : forall A n k (l : list A), nth_error l (n + k) = nth_error (skipn n l) k.
Proof. induction n; intros k [|x l]; cbn; auto. now destruct k. Qed.
Lemma skipn_next : forall A n (l : list A) x r, skipn n l = x :: r -> skipn (n + 1) l = r.
Proof.
  induction n; intros [|y l] x r H; cbn in *; try discriminate; [now injection H|]. eauto.
Qed.
Lemma skipn_last : forall n body eof t i, t_type eof = Eof ->
  Forall (fun t => t_type t <> Eof) body -> skipn n (body ++ [eof]) = t :: i ->
  (t_type t = Eof <-> i = nil).
Proof.
  intros n body eof t i E F. revert n. induction F as [|u r HU F IH]; intros [|n]; cbn.
  - intros X. injection X as <- <-. tauto.
  - destruct n; discriminate.
  - intros X. injection X as <- <-. split; [contradiction|]. intros X. destruct r; discriminate.
  - apply IH.
Qed.
Lemma tt_eqb_iff : forall a b, tt_eqb a b = true <-> a = b.
Proof. intros a b. unfold tt_eqb. destruct (token_type_eq_dec a b); split; auto; discriminate. Qed.
Lemma tt_mem_iff : forall k ks, tt_mem k ks = true <-> In k ks.
Proof.
  intros k ks. unfold tt_mem. rewrite existsb_exists. split.
  - intros (x & I & E). apply tt_eqb_iff in E. now subst.
  - intros I. exists k. split; auto. now apply tt_eqb_iff.
Qed.

Section Run.
Variable toks : list token.
Variable trailing oc : bool.
Hypothesis OK : tokens_ok toks.

Definition rest (s : pstate) : list token := skipn (cur s) toks.
Definition inside (s : pstate) : bool := 0 <? loops s.

(** Somewhere in the tokens, and not at the end before anything was read. *)
Definition valid (s : pstate) : Prop :=
  cur s < length toks /\ (cur s = 0 -> ~ starts [Eof] (rest s)).

(** An error found on the way from [s] to [s']: at a token between them, or at
    the last token before the end. *)
Definition bad (s : pstate) (c : cause) (s' : pstate) : Prop :=
  valid s' /\ cur s <= cur s' /\ loops s <= loops s' /\
  exists j t, nth_error toks j = Some t /\ cause_names t c /\ j <= cur s' /\
    (cur s <= j \/ (starts [Eof] (rest s') /\ cur s' = S j)).

Definition ext (b : bool) (s s' : pstate) : Prop :=
  valid s' /\ inside s' = b /\ cur s <= cur s' /\ loops s' = loops s.
Definition run (b : bool) {A} (m : P A) (s : pstate) (Q : A -> pstate -> Prop) : Prop :=
  match m s with
  | POk a s' => ext b s s' /\ Q a s'
  | PErr c s' => bad s c s'
  | PPanic _ => False
  | PFuel => False
  end.
Definition okay (b : bool) (s : pstate) : Prop := valid s /\ inside s = b.

Lemma ext_refl : forall b s, okay b s -> ext b s s.
Proof. intros b s [V I]. repeat split; auto; apply V. Qed.
Lemma ext_okay : forall b s s', ext b s s' -> okay b s'.
Proof. intros b s s' (V & I & _). split; auto. Qed.
Lemma ext_trans : forall b s s1 s2, ext b s s1 -> ext b s1 s2 -> ext b s s2.
Proof. intros b s s1 s2 (V1 & I1 & C1 & L1) (V2 & I2 & C2 & L2). repeat split; auto; try apply V2; try lia; congruence. Qed.
Lemma bad_ext : forall b s s1 c s2, ext b s s1 -> bad s1 c s2 -> bad s c s2.
Proof.
  intros b s s1 c s2 (V1 & I1 & C1 & L1) (V2 & C2 & L2 & j & t & E & N & J & D).
  split; auto. split; [lia|]. split; [lia|]. exists j, t. repeat split; auto; try apply N.
  destruct D as [D|D]; [left; lia | right; auto].
Qed.

Lemma run_ret : forall b A (a : A) s (Q : A -> pstate -> Prop),
  okay b s -> Q a s -> run b (pret a) s Q.
Proof. intros. cbn. split; auto using ext_refl. Qed.
Lemma run_bind : forall b A B (m : P A) (f : A -> P B) s (Q1 : A -> pstate -> Prop)
  (Q : B -> pstate -> Prop),
  run b m s Q1 ->
  (forall a s1, Q1 a s1 -> ext b s s1 -> okay b s1 -> run b (f a) s1 Q) ->
  run b (pbind m f) s Q.
Proof.
  intros b A B m f s Q1 Q H1 H2. unfold run, pbind in *. destruct (m s) as [a s1|c s1|w|]; auto.
  destruct H1 as [E1 H1]. specialize (H2 a s1 H1 E1 (ext_okay _ _ _ E1)).
  destruct (f a s1) as [v s2|c s2|w|]; auto.
  - destruct H2 as [E2 H2]. split; auto. eapply ext_trans; eauto.
  - eapply bad_ext; eauto.
Qed.
(** The same with errors counted from an earlier state [s0]. *)
Definition runf (b : bool) (s0 : pstate) {A} (m : P A) (s : pstate) (Q : A -> pstate -> Prop) : Prop :=
  match m s with
  | POk a s' => ext b s s' /\ Q a s'
  | PErr c s' => bad s0 c s'
  | PPanic _ => False
  | PFuel => False
  end.
Lemma runf_run : forall b A (m : P A) s0 s Q, ext b s0 s -> run b m s Q -> runf b s0 m s Q.
Proof. intros b A m s0 s Q X H. unfold run, runf in *. destruct (m s); auto. eapply bad_ext; eauto. Qed.
Lemma runf_start : forall b A (m : P A) s Q, runf b s m s Q -> run b m s Q.
Proof. auto. Qed.
Lemma runf_bind : forall b A B s0 (m : P A) (f : A -> P B) s (Q1 : A -> pstate -> Prop)
  (Q : B -> pstate -> Prop),
  ext b s0 s -> run b m s Q1 ->
  (forall a s1, Q1 a s1 -> ext b s s1 -> okay b s1 -> ext b s0 s1 -> runf b s0 (f a) s1 Q) ->
  runf b s0 (pbind m f) s Q.
Proof.
  intros b A B s0 m f s Q1 Q E0 H1 H2. unfold run, runf, pbind in *. destruct (m s) as [a s1|c s1|w|]; auto.
  2:{ eapply bad_ext; eauto. }
  destruct H1 as [E1 H1]. specialize (H2 a s1 H1 E1 (ext_okay _ _ _ E1) (ext_trans _ _ _ _ E0 E1)).
  destruct (f a s1) as [v s2|c s2|w|]; auto.
  destruct H2 as [E2 H2]. split; auto. eapply ext_trans; eauto.
Qed.
Lemma run_conseq : forall b A (m : P A) s (Q Q' : A -> pstate -> Prop),
  run b m s Q -> (forall a s', ext b s s' -> Q a s' -> Q' a s') -> run b m s Q'.
Proof. intros b A m s Q Q' H HQ. unfold run in *. destruct (m s); auto. destruct H; auto. Qed.
Lemma run_gets : forall b A (f : pstate -> A) s (Q : A -> pstate -> Prop),
  okay b s -> Q (f s) s -> run b (gets f) s Q.
Proof. intros. cbn. split; auto using ext_refl. Qed.
Lemma run_get_bind : forall b A B (g : pstate -> A) (f : A -> P B) s (Q : B -> pstate -> Prop),
  run b (f (g s)) s Q -> run b (pbind (gets g) f) s Q.
Proof. intros. exact H. Qed.

(** ** Tokens ahead *)
Lemma rest_nth : forall s, peek toks s = hd_error (rest s).
Proof.
  intros s. unfold peek, rest. rewrite <- (Nat.add_0_r (cur s)), skipn_nth, Nat.add_0_r.
  now destruct (skipn _ _).
Qed.
Lemma rest_next : forall s t i, rest s = t :: i -> rest (mkP (cur s + 1) (loops s)) = i.
Proof. intros s t i H. eapply skipn_next; exact H. Qed.
Lemma rest_later : forall s k, nth_error toks (cur s + k) = nth_error (rest s) k.
Proof. intros. apply skipn_nth. Qed.
Lemma rest_length : forall s, length (rest s) = length toks - cur s.
Proof. intros. apply skipn_length. Qed.
Lemma rest_some : forall s, cur s < length toks -> exists t i, rest s = t :: i.
Proof.
  intros s H. destruct (rest s) as [|t i] eqn:E; [|eauto].
  exfalso. assert (X := rest_length s). rewrite E in X. cbn in X. lia.
Qed.
Lemma eof_last : forall s t i, rest s = t :: i -> (t_type t = Eof <-> i = nil).
Proof.
  intros s t i H. destruct OK as [(body & eof & E & T & F) _ _].
  unfold rest in H. rewrite E in H. eapply skipn_last; eauto.
Qed.
Lemma rest_cons_in : forall s t i, rest s = t :: i -> In t toks.
Proof.
  intros s t i H. rewrite <- (firstn_skipn (cur s) toks). apply in_or_app. right.
  unfold rest in H. rewrite H. now left.
Qed.
Lemma valid_rest : forall s, valid s -> exists t i, rest s = t :: i.
Proof. intros s [V _]. now apply rest_some. Qed.


(** ** Primitives *)
Definition took (t : token) (s s1 : pstate) : Prop :=
  rest s = t :: rest s1 /\ cur s1 = S (cur s).

Lemma at_end_iff : forall s, valid s -> (is_at_end toks s = true <-> starts [Eof] (rest s)).
Proof.
  intros s V. destruct (valid_rest s V) as (t & i & E). unfold is_at_end.
  rewrite rest_nth, E. cbn. rewrite tt_eqb_iff. intuition.
Qed.
Lemma starts_one : forall k t i, starts [k] (t :: i) <-> t_type t = k.
Proof. intros. cbn. intuition. Qed.
Lemma check_iff : forall k s, valid s -> k <> Eof ->
  (check_st toks k s = true <-> starts [k] (rest s)).
Proof.
  intros k s V N. destruct (valid_rest s V) as (t & i & E). unfold check_st, is_at_end, tok_is.
  rewrite rest_nth, E, starts_one. cbn [hd_error].
  rewrite andb_true_iff, negb_true_iff, tt_eqb_iff. split; [tauto|]. intros <-. split; auto.
  destruct (tt_eqb (t_type t) Eof) eqn:X; auto. apply tt_eqb_iff in X. congruence.
Qed.
Lemma check_any_iff : forall ks s, valid s -> ~ In Eof ks ->
  (check_any_of_st toks ks s = true <-> starts ks (rest s)).
Proof.
  intros ks s V N. destruct (valid_rest s V) as (t & i & E). unfold check_any_of_st, is_at_end, tok_in.
  rewrite rest_nth, E. cbn [hd_error starts].
  rewrite andb_true_iff, negb_true_iff, tt_mem_iff. split; [tauto|]. intros I. split; auto.
  destruct (tt_eqb (t_type t) Eof) eqn:X; auto. apply tt_eqb_iff in X. congruence.
Qed.
Lemma next_not_eof : forall s t c r, rest s = t :: c :: r -> is_at_end toks s = false.
Proof.
  intros s t c r E. unfold is_at_end. rewrite rest_nth, E. cbn.
  destruct (tt_eqb (t_type t) Eof) eqn:X; auto. apply tt_eqb_iff in X.
  apply (eof_last s t (c :: r) E) in X. discriminate.
Qed.
Lemma check_next_iff : forall k s, valid s ->
  (check_next_st toks k s = true <-> exists t c r, rest s = t :: c :: r /\ t_type c = k).
Proof.
  intros k s V. destruct (valid_rest s V) as (t & i & E). unfold check_next_st, peek_next, tok_is.
  rewrite rest_later, E. cbn [nth_error]. destruct i as [|c r]; cbn.
  - rewrite andb_false_r. split; [discriminate|]. intros (t' & c & r & X & _). discriminate.
  - rewrite (next_not_eof s t c r E). cbn. rewrite tt_eqb_iff. split.
    + intros <-. exists t, c, r. auto.
    + intros (t' & c' & r' & X & K). now injection X as _ -> _.
Qed.
Lemma check_next_any_iff : forall ks s, valid s ->
  (check_next_any_of_st toks ks s = true <->
   exists t c r, rest s = t :: c :: r /\ In (t_type c) ks).
Proof.
  intros ks s V. destruct (valid_rest s V) as (t & i & E).
  unfold check_next_any_of_st, peek_next, tok_in.
  rewrite rest_later, E. cbn [nth_error]. destruct i as [|c r]; cbn.
  - rewrite andb_false_r. split; [discriminate|]. intros (t' & c & r & X & _). discriminate.
  - rewrite (next_not_eof s t c r E). cbn. rewrite tt_mem_iff. split.
    + intros I. exists t, c, r. auto.
    + intros (t' & c' & r' & X & K). now injection X as _ -> _.
Qed.
Lemma check_next_next_iff : forall k s, valid s ->
  (check_next_next_st toks k s = true <->
   exists t c d r, rest s = t :: c :: d :: r /\ t_type d = k).
Proof.
  intros k s V. destruct (valid_rest s V) as (t & i & E).
  unfold check_next_next_st, peek_next_next, tok_is.
  rewrite rest_later, E. cbn [nth_error]. destruct i as [|c [|d r]]; cbn.
  - rewrite andb_false_r. split; [discriminate|]. intros (? & ? & ? & ? & X & _). discriminate.
  - rewrite andb_false_r. split; [discriminate|]. intros (? & ? & ? & ? & X & _). discriminate.
  - rewrite (next_not_eof s t c (d :: r) E). cbn. rewrite tt_eqb_iff. split.
    + intros <-. exists t, c, d, r. auto.
    + intros (? & ? & ? & ? & X & K). now injection X as _ _ -> _.
Qed.

Lemma advance_took : forall s t i, valid s -> rest s = t :: i -> t_type t <> Eof ->
  valid (advance_st toks s) /\ took t s (advance_st toks s) /\
  loops (advance_st toks s) = loops s.
Proof.
  intros s t i [V _] E N. unfold advance_st.
  assert (X : is_at_end toks s = false).
  { unfold is_at_end. rewrite rest_nth, E. cbn. destruct (tt_eqb (t_type t) Eof) eqn:X; auto.
    apply tt_eqb_iff in X. contradiction. }
  rewrite X. assert (R := rest_next s t i E). split; [|split].
  - split; cbn; [|lia]. assert (L := rest_length s). rewrite E in L. cbn in L.
    destruct i; [|cbn in L; lia]. exfalso. apply N. now apply (eof_last s t nil E).
  - split; [now rewrite R | cbn; lia].
  - reflexivity.
Qed.
Lemma advance_at_end : forall s, is_at_end toks s = true -> advance_st toks s = s.
Proof. intros s H. unfold advance_st. now rewrite H. Qed.
Lemma okay_inside : forall b s s', okay b s -> loops s' = loops s -> valid s' -> okay b s'.
Proof. intros b s s' [V I] L V'. split; auto. unfold inside in *. now rewrite L. Qed.
Lemma ext_took : forall b s s' t, okay b s -> valid s' -> loops s' = loops s -> took t s s' ->
  ext b s s'.
Proof.
  intros b s s' t [V I] V' L [_ C]. split; auto. split; [unfold inside in *; now rewrite L|].
  split; [lia|auto].
Qed.
Lemma run_advance : forall b s t i, okay b s -> rest s = t :: i -> t_type t <> Eof ->
  run b (advance toks) s (fun _ s1 => took t s s1).
Proof.
  intros b s t i O E N. destruct (advance_took s t i (proj1 O) E N) as (V & T & L).
  cbn. split; auto. eapply ext_took; eauto.
Qed.

Lemma run_match_token : forall b k s, okay b s -> k <> Eof ->
  run b (match_token toks k) s (fun m s1 =>
    if m then exists t, took t s s1 /\ t_type t = k
    else s1 = s /\ ~ starts [k] (rest s)).
Proof.
  intros b k s O N. unfold match_token, check. apply run_get_bind.
  destruct (check_st toks k s) eqn:C.
  - apply check_iff in C; [|apply O|auto]. destruct (valid_rest s (proj1 O)) as (t & i & E).
    rewrite E, starts_one in C. eapply run_bind; [eapply run_advance; eauto; congruence|].
    intros [] s1 T X O1. apply run_ret; auto. eauto.
  - apply run_ret; auto. split; auto. rewrite <- check_iff by (auto; apply O). congruence.
Qed.
Lemma run_matches : forall b ks s, okay b s -> ~ In Eof ks ->
  run b (matches toks ks) s (fun o s1 =>
    match o with
    | Some (k, l) => exists t, took t s s1 /\ t_type t = k /\ l = tloc t /\ In k ks
    | None => s1 = s /\ ~ starts ks (rest s)
    end).
Proof.
  intros b ks s O N. unfold matches. apply run_get_bind.
  destruct (valid_rest s (proj1 O)) as (t & i & E). rewrite rest_nth, E. cbn [hd_error].
  destruct (tt_mem (t_type t) ks) eqn:M.
  - apply tt_mem_iff in M. eapply run_bind; [eapply run_advance; eauto; congruence|].
    intros [] s1 T X O1. apply run_ret; auto. eauto.
  - apply run_ret; auto. split; auto. cbn. rewrite <- tt_mem_iff. congruence.
Qed.

(** Errors *)
Lemma bad_here : forall b s t i c, okay b s -> rest s = t :: i -> cause_names t c -> bad s c s.
Proof.
  intros b s t i c [V _] E N. split; auto. split; [lia|]. split; [lia|].
  exists (cur s), t. split; [|split; [auto|split; [lia|left; lia]]].
  assert (R := rest_nth s). unfold peek in R. now rewrite R, E.
Qed.
Lemma run_error_peek : forall b A s msg (Q : A -> pstate -> Prop), okay b s ->
  run b (error_from_peek toks oc msg) s Q.
Proof.
  intros b A s msg Q O. destruct (valid_rest s (proj1 O)) as (t & i & E).
  unfold error_from_peek. apply run_get_bind. unfold peek_source_loc, run, pbind, gets.
  rewrite rest_nth, E. cbn. eapply bad_here; eauto. split; cbn; auto.
Qed.
Lemma error_last_names : forall A msg s n, cur s = S n -> cur s < length toks ->
  exists t, nth_error toks n = Some t /\
    exists c, @error_from_last toks oc A msg s = PErr c s /\ cause_names t c.
Proof.
  intros A msg s n E L. destruct (nth_error toks n) as [t|] eqn:N.
  2:{ apply nth_error_None in N. lia. }
  exists t. split; auto. unfold error_from_last, previous_source_loc, previous, pbind, pret.
  rewrite E, N, E, N. cbn. eexists. split; [reflexivity|]. split; cbn; auto.
Qed.
(** After a token was read since [s0]. *)
Lemma error_last_bad : forall A msg s0 s, valid s -> cur s0 < cur s -> loops s0 <= loops s ->
  match @error_from_last toks oc A msg s with PErr c s' => bad s0 c s' | _ => False end.
Proof.
  intros A msg s0 s V C L. destruct (cur s) as [|n] eqn:E; [lia|].
  destruct (error_last_names A msg s n E) as (t & N & c & -> & H); [apply V|].
  split; auto. split; [lia|]. split; auto. exists n, t. repeat split; auto; try apply H; lia.
Qed.
(** At the end. *)
Lemma error_last_end : forall A msg s, valid s -> starts [Eof] (rest s) ->
  match @error_from_last toks oc A msg s with PErr c s' => bad s c s' | _ => False end.
Proof.
  intros A msg s V E. destruct (cur s) as [|n] eqn:C; [exfalso; now apply V in E|].
  destruct (error_last_names A msg s n C) as (t & N & c & -> & H); [apply V|].
  split; auto. split; [lia|]. split; auto. exists n, t. repeat split; auto; try apply H; lia.
Qed.

Lemma runf_error_last : forall b A s0 s msg (Q : A -> pstate -> Prop), ext b s0 s ->
  cur s0 < cur s -> runf b s0 (error_from_last toks oc msg) s Q.
Proof.
  intros b A s0 s msg Q (V & _ & _ & L) C. unfold runf.
  assert (H := error_last_bad A msg s0 s V C). destruct (error_from_last toks oc msg s); try (apply H; lia).
  exfalso. apply H. lia.
Qed.
(** An error at a given token read since. *)
Lemma runf_fail : forall b A s0 s1 s t i c (Q : A -> pstate -> Prop), ext b s0 s1 -> ext b s1 s ->
  rest s1 = t :: i -> cur s1 < cur s -> cause_names t c -> runf b s0 (pfail c) s Q.
Proof.
  intros b A s0 s1 s t i c Q (V1 & _ & C1 & L1) (V & _ & C & L) E C2 N. cbn.
  split; auto. split; [lia|]. split; [lia|]. exists (cur s1), t.
  split; [|split; [auto|lia]]. assert (R := rest_nth s1). unfold peek in R. now rewrite R, E.
Qed.

Lemma run_consume_any : forall b ks msg s, okay b s -> ~ In Eof ks ->
  run b (consume_any_of toks oc ks msg) s (fun _ s1 => exists t, took t s s1 /\ In (t_type t) ks).
Proof.
  intros b ks msg s O N. unfold consume_any_of. eapply run_bind; [apply run_matches; auto|].
  intros [[k l]|] s1 H X O1.
  - destruct H as (t & T & E & _ & I). apply run_ret; auto. exists t. split; auto. congruence.
  - apply run_error_peek; auto.
Qed.
Lemma run_consume : forall b k msg s, okay b s -> k <> Eof ->
  run b (consume toks oc k msg) s (fun _ s1 => exists t, took t s s1 /\ t_type t = k).
Proof.
  intros b k msg s O N. eapply run_conseq; [apply run_consume_any; auto; cbn; intuition|].
  intros [] s1 _ (t & T & [E|[]]). eauto.
Qed.
Lemma run_identifier : forall b msg s, okay b s ->
  run b (consume_identifier toks oc msg) s (fun r s1 =>
    exists t, took t s s1 /\ t_type t = Identifier /\ r = (t_lexeme t, tloc t)).
Proof.
  intros b msg s O. unfold consume_identifier. apply run_get_bind.
  destruct (valid_rest s (proj1 O)) as (t & i & E). rewrite rest_nth, E. cbn [hd_error].
  destruct (tt_eqb (t_type t) Identifier) eqn:X.
  - apply tt_eqb_iff in X. eapply run_bind; [eapply run_advance; eauto; congruence|].
    intros [] s1 T Y O1. apply run_ret; auto. eauto.
  - apply run_error_peek; auto.
Qed.
Lemma took_then : forall t k s s1, took t s s1 -> t_type t = k -> token_then k (rest s) (rest s1).
Proof. intros t k s s1 [E _] K. exists t. auto. Qed.
Lemma took_name : forall t s s1, took t s s1 -> t_type t = Identifier -> name_then t (rest s) (rest s1).
Proof. intros t s s1 [E _] K. split; auto. Qed.
Lemma run_begin_block : forall b msg s, okay b s ->
  run b (consume_begin_block toks oc msg) s (fun k s1 =>
    opens k (rest s) (rest s1) /\ cur s < cur s1 /\ (k = Outdent \/ k = RightBrace)).
Proof.
  intros b msg s O. unfold consume_begin_block.
  eapply run_bind; [apply run_matches; auto; cbn; intuition discriminate|].
  intros [[k l]|] s1 H X O1.
  - destruct H as (t & [T C] & E & _ & I). cbn in I. destruct I as [<-|[<-|[]]].
    + eapply run_bind; [apply run_consume; auto; discriminate|].
      intros [] s2 (u & [T2 C2] & E2) X2 O2. apply run_ret; auto.
      split; [|split; [lia|auto]]. rewrite T, T2. constructor; auto.
    + apply run_ret; auto. split; [|split; [lia|auto]]. rewrite T. constructor; auto.
  - apply run_error_peek; auto.
Qed.
Lemma run_end_block : forall b k msg s, okay b s -> k = Outdent \/ k = RightBrace ->
  run b (consume_end_block toks oc k msg) s (fun _ s1 =>
    token_then k (rest s) (rest s1) /\ cur s < cur s1).
Proof.
  intros b k msg s O K. unfold consume_end_block.
  eapply run_bind; [apply run_matches; auto; cbn; destruct K; subst; intuition discriminate|].
  intros [[k' l]|] s1 H X O1.
  - destruct H as (t & [T C] & E & _ & [I|[]]). apply run_ret; auto. split; [|lia].
    exists t. split; auto. congruence.
  - destruct K; subst; apply run_error_peek; auto.
Qed.
End Run.
