(** Lines added to a text keep its syntax errors, all but the last. *)
From Verif Require Import Base F64 Token Ast Scanner Parser ParseRun ParseTop Repair.
From Coq Require Import Lia.

Section Loop.
Variables X S1 S2 : list token.
Hypothesis NoEof : Forall (fun t => t_type t <> Eof) X.
Hypothesis NoKey : Forall (fun t => is_sync_type (t_type t) = false) S1.
Variables trailing oc : bool.
Notation t1 := (X ++ S1).
Notation t2 := (X ++ S2).

Definition key_before (p : nat) : Prop := 0 < p /\ exists kw, nth_error X (p - 1) = Some kw /\ is_sync_type (t_type kw) = true.

Lemma same_declaration p n n' : key_before p -> sim p (k_decl (level t1 trailing oc n)) (k_decl (level t2 trailing oc n')).
Proof. intros (P & kw & K & Y). now apply (sim_level X S1 S2 NoEof p kw). Qed.
Lemma same_end p s : key_before p -> cur s < p -> is_at_end t1 s = is_at_end t2 s.
Proof. intros (P & kw & K & Y) L. now apply (end_same X S1 S2 p kw). Qed.
Lemma same_advance p : key_before p -> sim p (advance t1) (advance t2).
Proof. intros (P & kw & K & Y). now apply (sim_advance X S1 S2 p kw). Qed.
Lemma key_in n t : nth_error t1 n = Some t -> is_sync_type (t_type t) = true -> key_before (S n).
Proof.
  intros E K. split; [lia|]. exists t. split; auto. replace (S n - 1) with n by lia.
  destruct (Nat.lt_ge_cases n (length X)) as [L|L]; [now rewrite nth_error_app1 in E by exact L|].
  rewrite nth_error_app2 in E by exact L. apply nth_error_In in E. rewrite Forall_forall in NoKey. rewrite NoKey in K by exact E.
  discriminate.
Qed.

(** Recovery that does not end at the end of the tokens stops behind a keyword of [X]. *)
Lemma sync_stops n : forall s u s2, synchronize_loop t1 oc n s = POk u s2 -> is_at_end t1 s2 = false ->
  key_before (cur s2) /\ cur s <= cur s2 /\ loops s2 = loops s.
Proof.
  induction n as [|n IH]; intros s u s2 H E; cbn [synchronize_loop] in H.
  - destruct (is_at_end t1 s) eqn:A; [|discriminate]. injection H as _ <-. congruence.
  - destruct (is_at_end t1 s) eqn:A. { injection H as _ <-. congruence. }
    unfold pbind at 1, previous in H. destruct (cur s) as [|m] eqn:C.
    + destruct oc; [discriminate|]. unfold pbind, advance, advance_st in H. rewrite A in H.
      destruct (IH _ _ _ H E) as (P & L & Q). cbn in *. repeat split; try apply P; [lia|auto].
    + destruct (nth_error t1 m) as [t|] eqn:N.
      * destruct (is_sync_type (t_type t)) eqn:K.
        -- injection H as _ <-. rewrite C. split; [now apply (key_in m t)|]. auto.
        -- unfold pbind, advance, advance_st in H. rewrite A in H. destruct (IH _ _ _ H E) as (P & L & Q). cbn in *.
           repeat split; try apply P; [lia|auto].
      * unfold pbind, advance, advance_st in H. rewrite A in H. destruct (IH _ _ _ H E) as (P & L & Q). cbn in *.
        repeat split; try apply P; [lia|auto].
Qed.
Lemma key_inside p : key_before p -> p <= length X.
Proof. intros (P & kw & K & Y). assert (p - 1 < length X) by (apply nth_error_Some; congruence). lia. Qed.
Lemma same_nth p m : key_before p -> m < p -> nth_error t1 m = nth_error t2 m.
Proof. intros K L. apply key_inside in K. now rewrite !nth_error_app1 by lia. Qed.
Lemma sync_same n : forall n' s u s2, synchronize_loop t1 oc n s = POk u s2 -> is_at_end t1 s2 = false ->
  synchronize_loop t2 oc n' s = POk u s2 \/ synchronize_loop t2 oc n' s = PFuel.
Proof.
  induction n as [|n IH]; intros n' s u s2 H E; assert (G := H); apply sync_stops in G; auto; destruct G as (K & L & _);
    cbn [synchronize_loop] in H.
  - destruct (is_at_end t1 s) eqn:A; [|discriminate]. injection H as _ <-. congruence.
  - destruct (is_at_end t1 s) eqn:A. { injection H as _ <-. congruence. }
    assert (Go : forall u s2, synchronize_loop t1 oc n (advance_st t1 s) = POk u s2 -> is_at_end t1 s2 = false -> cur s < cur s2).
    { intros v r Q Er. apply sync_stops in Q; auto. destruct Q as (_ & Q & _). unfold advance_st in Q. rewrite A in Q. cbn in Q. lia. }
    assert (Ad : cur s < cur s2 -> is_at_end t2 s = false /\ advance_st t2 s = advance_st t1 s).
    { intros Z. unfold advance_st. rewrite <- !(same_end _ _ K Z), A. auto. }
    assert (Fin : forall o, (match o with Some t => is_sync_type (t_type t) | None => false end) = false ->
       previous t1 oc s = POk o s -> (cur s < cur s2 -> previous t2 oc s = POk o s) ->
       synchronize_loop t2 oc n' s = POk u s2 \/ synchronize_loop t2 oc n' s = PFuel).
    { intros o No P1 P2. unfold pbind at 1 in H. rewrite P1, No in H. unfold pbind, advance in H.
      assert (Z := Go _ _ H E). destruct (Ad Z) as (A2 & D2). specialize (P2 Z).
      destruct n' as [|n']; cbn [synchronize_loop]; rewrite A2; [now right|].
      unfold pbind at 1 3. rewrite P2, No. unfold pbind, advance. rewrite D2. now apply IH. }
    unfold previous in Fin. destruct (cur s) as [|m] eqn:C.
    + unfold pbind at 1, previous in H. rewrite C in H. destruct oc; [discriminate|]. now apply (Fin None).
    + destruct (match nth_error t1 m with Some t => is_sync_type (t_type t) | None => false end) eqn:No.
      * unfold pbind at 1, previous in H. rewrite C, No in H. injection H as <- <-.
        destruct n' as [|n']; cbn [synchronize_loop]; (destruct (is_at_end t2 s); [now left|]); [now right|left].
        unfold pbind at 1, previous. rewrite C. rewrite <- (same_nth _ m K) by lia. now rewrite No.
      * apply (Fin (nth_error t1 m)); auto. intros Z. now rewrite <- (same_nth _ m K) by lia.
Qed.
Lemma synchronize_same s u s2 : synchronize t1 oc s = POk u s2 -> is_at_end t1 s2 = false ->
  key_before (cur s2) /\ cur s < cur s2 /\ (synchronize t2 oc s = POk u s2 \/ synchronize t2 oc s = PFuel).
Proof.
  unfold synchronize, pbind, advance. intros H E.
  destruct (sync_stops _ _ _ _ H E) as (K & L & _). unfold advance_st in L. destruct (is_at_end t1 s) eqn:A.
  { unfold advance_st in H. rewrite A in H. cbn [synchronize_loop] in H. rewrite A in H. injection H as _ <-. congruence. }
  cbn in L. split; auto. split; [lia|].
  replace (advance_st t2 s) with (advance_st t1 s); [now apply (sync_same (S (length t1)))|].
  unfold advance_st. now rewrite <- (same_end _ s K) by lia.
Qed.

(** The errors only grow. *)
Lemma errors_grow toks n : forall st er s st' er' s', parse_loop toks trailing oc n st er s = Done (st', er', s') ->
  exists more, er' = er ++ more.
Proof.
  induction n as [|n IH]; intros st er s st' er' s' H; cbn [parse_loop] in H; (destruct (is_at_end toks s);
    [injection H as _ <- _; exists nil; now rewrite app_nil_r|]); [discriminate|].
  destruct (k_decl _ s) as [d r|c r| |]; try discriminate; [now apply IH in H|].
  destruct (synchronize toks oc r) as [u r2| | |]; try discriminate. apply IH in H. destruct H as [m ->].
  exists (c :: m). now rewrite <- app_assoc.
Qed.

(** Up to where it goes on after the first of two errors, the second run does the same. *)
Lemma first_error n : forall st er s st' a b ds s', parse_loop t1 trailing oc n st er s = Done (st', er ++ a :: b :: ds, s') ->
  exists n2 st2 s2, parse_loop t1 trailing oc n2 st2 (er ++ [a]) s2 = Done (st', er ++ a :: b :: ds, s') /\
    key_before (cur s2) /\ cur s < cur s2 /\ n2 < n /\
    forall n' o, parse_loop t2 trailing oc n' st er s = Done o ->
    exists n2', parse_loop t2 trailing oc n2' st2 (er ++ [a]) s2 = Done o.
Proof.
  induction n as [|n IH]; intros st er s st' a b ds s' H; cbn [parse_loop] in H; destruct (is_at_end t1 s) eqn:A;
    try discriminate; try (injection H as _ H _; rewrite <- (app_nil_r er) in H at 1; apply app_inv_head in H; discriminate).
  destruct (k_decl (level t1 trailing oc (nesting_fuel t1)) s) as [d r|c r| |] eqn:Dr; try discriminate.
  - destruct (IH _ _ _ _ _ _ _ _ H) as (n2 & st2 & s2 & H2 & K & L & Ln & Fw).
    pose proof (same_declaration (cur s2) (nesting_fuel t1) (nesting_fuel t2) K s) as Sm. rewrite Dr in Sm. destruct Sm as [L1 Sm].
    exists n2, st2, s2. split; auto. split; auto. split; [lia|]. split; [lia|]. intros n' o G.
    destruct n' as [|n']; cbn [parse_loop] in G; rewrite <- (same_end (cur s2) s K ltac:(lia)), A in G; [discriminate|].
    destruct (Sm L) as [Q|Q]; rewrite Q in G; [|discriminate]. exact (Fw _ _ G).
  - destruct (synchronize t1 oc r) as [u r2| | |] eqn:Sy; try discriminate.
    assert (G := errors_grow _ _ _ _ _ _ _ _ H). destruct G as [more G]. rewrite <- app_assoc in G.
    apply app_inv_head in G. cbn in G. injection G as <- <-.
    assert (A2 : is_at_end t1 r2 = false).
    { destruct (is_at_end t1 r2) eqn:A2; auto. destruct n; cbn [parse_loop] in H; rewrite A2 in H; injection H as _ H _;
        apply app_inv_head in H; discriminate. }
    destruct (synchronize_same _ _ _ Sy A2) as (K & L & Q).
    pose proof (same_declaration (cur r2) (nesting_fuel t1) (nesting_fuel t2) K s) as Sm. rewrite Dr in Sm. destruct Sm as [L1 Sm].
    exists n, st, r2. split; auto. split; auto. split; [lia|]. split; [lia|]. intros n' o G.
    destruct n' as [|n']; cbn [parse_loop] in G; rewrite <- (same_end (cur r2) s K ltac:(lia)), A in G; [discriminate|].
    destruct (Sm L) as [Q1|Q1]; rewrite Q1 in G; [|discriminate]. destruct Q as [Q|Q]; rewrite Q in G; [|discriminate].
    exists n'. exact G.
Qed.
Lemma errors_kept ds : forall n st er s st' e s', parse_loop t1 trailing oc n st er s = Done (st', er ++ ds ++ [e], s') ->
  forall n' st2 er2 s2, parse_loop t2 trailing oc n' st er s = Done (st2, er2, s2) ->
  exists more, er2 = (er ++ ds) ++ more.
Proof.
  induction ds as [|a ds IH]; intros n st er s st' e s' H n' st2 er2 s2 H2.
  - rewrite app_nil_r. exact (errors_grow _ _ _ _ _ _ _ _ H2).
  - assert (exists b ds', a :: ds ++ [e] = a :: b :: ds') as (b & ds' & Q) by (destruct ds; cbn; eexists _, _; reflexivity).
    cbn [app] in H. rewrite Q in H. destruct (first_error _ _ _ _ _ _ _ _ _ H) as (m & st3 & s3 & H3 & _ & _ & _ & Fw).
    destruct (Fw _ _ H2) as (m' & G).
    replace (er ++ a :: b :: ds') with ((er ++ [a]) ++ ds ++ [e]) in H3 by (rewrite <- app_assoc; cbn; congruence).
    destruct (IH _ _ _ _ _ _ _ H3 _ _ _ _ G) as [more ->]. exists more. now rewrite <- !app_assoc.
Qed.
End Loop.

(** The same for the whole list of tokens. *)
Lemma tokens_kept X S1 S2 trailing oc cs e : tokens_ok (X ++ S1) -> tokens_ok (X ++ S2) ->
  Forall (fun t => t_type t <> Eof) X -> Forall (fun t => is_sync_type (t_type t) = false) S1 ->
  parse_tokens (X ++ S1) trailing oc = Done (Err (cs ++ [e])) -> cs <> nil ->
  exists more, parse_tokens (X ++ S2) trailing oc = Done (Err (cs ++ more)).
Proof.
  intros O1 O2 NE NK H C. unfold parse_tokens in *.
  destruct (parse_loop_spec _ trailing oc O1 (loop_fuel (X ++ S1)) nil nil (mkP 0 0)) as (st & es & s' & P1 & L & E & _).
  { exact (toks_nonempty _ O1). } { cbn. unfold loop_fuel. lia. }
  rewrite P1 in H. cbn [obind app] in H. rewrite (consume_eof _ oc) in H by auto.
  assert (es = cs ++ [e]) as -> by (destruct es; [discriminate|]; congruence).
  destruct (parse_loop_spec _ trailing oc O2 (loop_fuel (X ++ S2)) nil nil (mkP 0 0)) as (st2 & es2 & s2 & P2 & L2 & E2 & _).
  { exact (toks_nonempty _ O2). } { cbn. unfold loop_fuel. lia. }
  cbn [app] in *. destruct (errors_kept X S1 S2 NE NK trailing oc cs _ _ nil _ _ _ _ P1 _ _ _ _ P2) as [more ->].
  exists more. rewrite P2. cbn [obind app]. rewrite (consume_eof _ oc) by auto.
  destruct cs; [now destruct C|reflexivity].
Qed.
