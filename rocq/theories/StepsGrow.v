(** What the scanner has found stays. *)
From Verif Require Import Base F64 Token Ast Scanner SpecSteps Steps.
From Coq Require Import Lia.
Local Open Scope string_scope.

Definition grow (s r : scanner) : Prop := exists a b, sc_tokens r = (sc_tokens s ++ a)%list /\ sc_errors r = (sc_errors s ++ b)%list.
(** Nothing new. *)
Definition quiet (s r : scanner) : Prop := sc_tokens r = sc_tokens s /\ sc_errors r = sc_errors s.
Lemma quiet_grow s r : quiet s r -> grow s r.
Proof. intros [A B]. exists nil, nil. now rewrite !app_nil_r. Qed.
Lemma grow_trans s r u : grow s r -> grow r u -> grow s u.
Proof. intros (a & b & A & B) (c & d & C & D). exists (a ++ c)%list, (b ++ d)%list. now rewrite C, D, A, B, !app_assoc. Qed.
Lemma quiet_self s : quiet s s. Proof. split; reflexivity. Qed.
Lemma quiet_trans s r u : quiet s r -> quiet r u -> quiet s u.
Proof. intros [A B] [C D]. split; congruence. Qed.
Definition grown {B} (st : B -> scanner) (s : scanner) (x : outcome B) : Prop := match x with Done b => grow s (st b) | _ => True end.
Lemma grown_bind {B C} (sb : B -> scanner) (sc : C -> scanner) s x h : grown sb s x -> (forall b, grown sc (sb b) (h b)) ->
  grown sc s (obind x h).
Proof.
  intros X H. unfold grown in *. destruct x as [b| | |]; cbn [obind]; auto. specialize (H b). destruct (h b); auto.
  now apply grow_trans with (sb b).
Qed.
Lemma grown_start {B} (st : B -> scanner) s r x : quiet s r -> grown st r x -> grown st s x.
Proof. intros Q. unfold grown. destruct x; auto. intros G. apply grow_trans with r; auto. now apply quiet_grow. Qed.
Notation here := (fun s : scanner => s).
Lemma grown_quiet s r : quiet s r -> grown here s (Done r).
Proof. apply quiet_grow. Qed.

Lemma adv_quiet s : quiet s (adv s).
Proof. unfold adv, advance. cbn. destruct (sc_gi s) as [|[i g] r]; split; reflexivity. Qed.
Lemma while_quiet p : forall l s, quiet s (advance_while p l s).
Proof.
  induction l as [|[i g] r IH]; intros s; cbn; [apply quiet_self|]. destruct (p g); [|apply quiet_self].
  apply quiet_trans with (adv s); [apply adv_quiet|apply IH].
Qed.
Lemma string_quiet : forall l s, quiet s (string_loop l s).
Proof.
  induction l as [|[i g] r IH]; intros s; cbn [string_loop]; [apply adv_quiet|]. destruct (String.eqb g s_quote); [apply quiet_self|].
  cbv zeta. eapply quiet_trans; [|apply IH]. eapply quiet_trans; [|apply adv_quiet]. destruct (String.eqb g s_nl); split; reflexivity.
Qed.
Lemma matches_quiet g s : quiet s (fst (matches g s)).
Proof.
  unfold matches. destruct (is_at_end s); [apply quiet_self|]. destruct (peek_grapheme s); [|apply quiet_self].
  destruct (negb _); [apply quiet_self|apply adv_quiet].
Qed.
Lemma spaces_quiet : forall l s, quiet s (match_spaces l s).
Proof.
  induction l as [|q r IH]; intros s; [apply quiet_self|]. rewrite spaces_cons. pose proof (matches_quiet " " s) as M.
  destruct (matches " " s) as [s1 [|]]; cbn [fst] in M; [|exact M]. apply quiet_trans with s1; auto.
Qed.
Lemma reset_quiet s : quiet s (reset_line s).
Proof. unfold reset_line. destruct (negb _); split; reflexivity. Qed.
Lemma error_grow c s : grow s (error c s).
Proof. exists nil, [c]. cbn. now rewrite app_nil_r. Qed.
Lemma push_grow t s : grow s (push_token t s).
Proof. exists [t], nil. cbn. now rewrite app_nil_r. Qed.
Lemma add_grow k s : grown here s (add_token k s).
Proof. unfold add_token. destruct (source_slice _ _ _); cbn; auto. apply push_grow. Qed.
Lemma add_string_grow v l s : grown here s (add_string_literal_token v l s).
Proof. unfold add_string_literal_token. destruct (source_slice _ _ _); cbn; auto. apply push_grow. Qed.
Lemma add_number_grow v s : grown here s (add_number_literal_token v s).
Proof. unfold add_number_literal_token. destruct (source_slice _ _ _); cbn; auto. apply push_grow. Qed.
Lemma outdent_grow : forall l s, grown fst s (outdent_loop l s).
Proof.
  induction l as [|n r IH]; intros s; cbn [outdent_loop]; [apply quiet_grow, quiet_self|].
  destruct (n ?= _)%N; [apply quiet_grow, quiet_self|exact I|].
  apply (grown_bind here); [|intros; apply IH]. apply (grown_start here s (set_indentation r s)); [split; reflexivity|apply add_grow].
Qed.
Lemma bol_grow s : grown here s (bol_indentation_tokens s).
Proof.
  unfold bol_indentation_tokens. destruct (negb _); [apply quiet_grow, quiet_self|].
  apply (grown_bind here); [|intros b; apply quiet_grow; split; reflexivity].
  destruct (_ ?= _)%N; [apply quiet_grow, quiet_self| |].
  - apply (grown_bind fst); [apply outdent_grow|]. intros [b m]. destruct (negb m && _)%bool; [apply error_grow|apply quiet_grow, quiet_self].
  - destruct (negb _); [|apply quiet_grow, quiet_self]. apply (grown_bind here); [apply add_grow|].
    intros b. apply quiet_grow. split; reflexivity.
Qed.
Lemma string_grow s : grown here s (scan_string s).
Proof.
  unfold scan_string. cbv zeta. apply (grown_start here s (string_loop (sc_gi s) s)); [apply string_quiet|].
  destruct (is_at_end _); [apply error_grow|]. eapply (grown_start here); [apply adv_quiet|].
  destruct (source_slice _ _ _); cbn [obind]; try exact I. apply add_string_grow.
Qed.
Lemma number_grow s : grown here s (scan_number s).
Proof.
  unfold scan_number. cbv zeta. apply (grown_start here s (advance_while is_digit (sc_gi s) s)); [apply while_quiet|].
  set (b := advance_while _ _ _). clearbody b.
  match goal with |- context [source_slice ?x _ _] => assert (Q : quiet b x); [|set (c := x) in *; clearbody c] end.
  { destruct (is_match "." b); [|apply quiet_self]. eapply quiet_trans; [|apply while_quiet].
    destruct (peek_next_grapheme b) as [g|]; [destruct (is_digit g)|]; try apply quiet_self. apply adv_quiet. }
  apply (grown_start here b c _ Q). destruct (source_slice _ _ _) as [x| | |]; cbn [obind]; try exact I.
  destruct (parse_f64 x); [apply add_number_grow|exact I].
Qed.
Lemma identifier_grow U s : grown here s (scan_identifier U s).
Proof.
  unfold scan_identifier. cbv zeta. eapply (grown_start here); [apply while_quiet|].
  destruct (source_slice _ _ _); cbn [obind]; try exact I. apply add_grow.
Qed.
Notation third := (fun q : scanner * bool * bool => fst (fst q)).
Ltac done3 := apply quiet_grow; split; reflexivity.
Lemma punct_grow k b s : grown third s (scan_punct k b s).
Proof.
  unfold scan_punct. apply (grown_bind here); [apply bol_grow|intros]. apply (grown_bind here); [apply add_grow|intros; done3].
Qed.
Lemma punct_eq_grow k2 k1 b s : grown third s (scan_punct_eq k2 k1 b s).
Proof.
  unfold scan_punct_eq. apply (grown_bind here); [apply bol_grow|intros s1]. pose proof (matches_quiet "=" s1) as M.
  destruct (matches "=" s1) as [s2 m]. apply (grown_start third s1 s2 _ M). apply (grown_bind here); [apply add_grow|intros; done3].
Qed.
Lemma cluster_grow U g s : grown third s (scan_cluster U g s).
Proof.
  unfold scan_cluster. destruct (String.eqb g "(").
  { apply (grown_bind here); [apply bol_grow|intros]. apply (grown_bind here); [apply add_grow|intros; done3]. }
  repeat match goal with |- grown _ _ (if ?b then scan_punct _ _ _ else _) => destruct b; [apply punct_grow|] end.
  repeat match goal with |- grown _ _ (if ?b then scan_punct_eq _ _ _ _ else _) => destruct b; [apply punct_eq_grow|] end.
  destruct (String.eqb g "/").
  { cbv zeta. apply (grown_bind here); [apply bol_grow|intros s1]. pose proof (matches_quiet "/" s1) as M.
    destruct (matches "/" s1) as [s2 m]. apply (grown_start third s1 s2 _ M). destruct m.
    - apply quiet_grow. exact (while_quiet _ _ s2).
    - apply (grown_bind here); [apply add_grow|intros; done3]. }
  destruct (String.eqb g s_backslash).
  { cbv zeta. apply (grown_start third s (match_spaces (sc_gi s) s)); [apply spaces_quiet|].
    set (b := match_spaces _ _). clearbody b. apply (grown_start third b (fst (matches s_cr b))); [apply matches_quiet|].
    set (c := fst _). clearbody c. pose proof (matches_quiet s_nl c) as M. destruct (matches s_nl c) as [d m].
    apply (grown_start third c d _ M). destruct m; [|apply error_grow]. apply quiet_grow. exact (reset_quiet d). }
  destruct (String.eqb g s_tab); [apply error_grow|].
  destruct (String.eqb g " "); [apply quiet_grow; cbn; destruct (sc_is_bol s); split; reflexivity|].
  destruct (String.eqb g s_cr); [done3|].
  destruct (String.eqb g s_nl).
  { cbv zeta. apply (grown_bind here).
    - destruct (_ && _ && _)%bool; [apply add_grow|done3].
    - intros s1. apply quiet_grow. exact (reset_quiet s1). }
  destruct (String.eqb g s_quote).
  { apply (grown_bind here); [apply bol_grow|intros]. apply (grown_bind here); [apply string_grow|intros; done3]. }
  apply (grown_bind here); [apply bol_grow|intros s1].
  destruct (is_digit g); [apply (grown_bind here); [apply number_grow|intros; done3]|].
  destruct (is_alphabetic U g); [apply (grown_bind here); [apply identifier_grow|intros; done3]|]. apply error_grow.
Qed.
Lemma token_grow U s : grown here s (scan_token U s).
Proof.
  unfold scan_token. cbv zeta. pose proof (adv_quiet (set_start_column (sc_column s) s)) as M. unfold adv in M.
  destruct (advance _) as [s1 o]. cbn [fst] in M. change (quiet s s1) in M. apply (grown_start here s s1 _ M).
  destruct o as [[i g]|]; [|done3]. apply (grown_bind third); [apply cluster_grow|]. intros [[b w] f]. done3.
Qed.
Lemma loop_grow U n : forall s, grown here s (scan_loop U n s).
Proof.
  induction n as [|n IH]; intros s; cbn [scan_loop]; destruct (is_at_end s); try done3; [exact I|].
  apply (grown_bind here); [|intros; apply IH]. apply (grown_start here s (set_start (peek_index s) s)); [split; reflexivity|apply token_grow].
Qed.
Lemma outdents_grow n : forall s, grown here s (add_outdents n s).
Proof.
  induction n as [|n IH]; intros s; cbn [add_outdents]; [done3|]. apply (grown_bind here); [apply add_grow|intros; apply IH].
Qed.
Lemma loop_steps U n : forall k s r u, steps U n s r -> scan_loop U k s = Done u -> exists m, scan_loop U m r = Done u.
Proof.
  induction n as [|n IH]; cbn [steps]; intros k s r u; [intros ->; eauto|]. intros (E & s1 & Q & S) P.
  destruct k as [|k]; cbn [scan_loop] in P; rewrite E in P; [discriminate|]. rewrite Q in P. cbn [obind] in P. eauto.
Qed.
(** What was found after some rounds is in the result. *)
Theorem steps_result U gs n s : steps U n (scanner_new gs) s ->
  match scan_tokens U gs with
  | Done (Ok toks) => sc_errors s = nil /\ exists more, toks = (sc_tokens s ++ more)%list
  | Done (Err errs) => exists more, errs = (sc_errors s ++ more)%list
  | _ => True
  end.
Proof.
  intros S. unfold scan_tokens, scan_tokens_from. destruct (scan_loop U _ _) as [u| | |] eqn:Q; cbn [obind]; auto.
  destruct (loop_steps U n _ _ _ _ S Q) as (m & P). pose proof (loop_grow U m s) as G1. rewrite P in G1. cbn in G1.
  unfold close_all_blocks. cbv zeta. pose proof (outdents_grow (length (sc_indentation (set_start_column (sat_pred (sc_column u)) u)))
    (set_start_column (sat_pred (sc_column u)) u)) as G2.
  destruct (add_outdents _ _) as [v| | |]; cbn [obind]; auto. cbn [grown] in G2. change (grow u v) in G2.
  pose proof (add_grow Eof v) as G3. destruct (add_token Eof v) as [w| | |]; cbn [obind]; auto. cbn [grown] in G3.
  destruct (grow_trans _ _ _ G1 (grow_trans _ _ _ G2 G3)) as (a & b & A & B). cbn [snd]. rewrite A, B.
  destruct (sc_errors s ++ b)%list as [|e r] eqn:Y.
  - apply app_eq_nil in Y. destruct Y as [-> _]. eauto.
  - rewrite <- Y. eauto.
Qed.
Theorem scan_ahead U X D1 D2 n s : Forall (fun g => g <> EmptyString) X -> steps U n (scanner_new (X ++ D1)) s ->
  length D1 + 2 <= unread s ->
  match scan_tokens U (X ++ D2) with
  | Done (Ok toks) => sc_errors s = nil /\ exists more, toks = (sc_tokens s ++ more)%list
  | Done (Err errs) => exists more, errs = (sc_errors s ++ more)%list
  | _ => True
  end.
Proof.
  intros F S L. destruct (scanner_ahead U X D1 D2 n s F S L) as (t & S2 & (E1 & E2 & _) & _). rewrite E1, E2.
  now apply steps_result with n.
Qed.

(** Every finished scan is a number of rounds to the end of the text, after which only blocks are closed. *)
Lemma loop_all U n : forall s u, scan_loop U n s = Done u -> exists k, steps U k s u /\ is_at_end u = true.
Proof.
  induction n as [|n IH]; intros s u; cbn [scan_loop]; destruct (is_at_end s) eqn:E; intros Q; try discriminate.
  - injection Q as <-. exists 0. now split.
  - injection Q as <-. exists 0. now split.
  - destruct (scan_token U (set_start (peek_index s) s)) as [s1| | |] eqn:T; cbn [obind] in Q; try discriminate.
    destruct (IH s1 u Q) as (k & A & B). exists (S k). split; [|exact B]. cbn [steps]. eauto.
Qed.
Lemma add_done k s r : add_token k s = Done r -> exists t, t_type t = k /\ sc_tokens r = (sc_tokens s ++ [t])%list /\ sc_errors r = sc_errors s.
Proof.
  unfold add_token. destruct (source_slice _ _ _); cbn [obind]; intros Q; try discriminate. injection Q as <-.
  eexists (mkToken k _ _ _ _ _). split; [reflexivity|]. split; reflexivity.
Qed.
Lemma outdents_done n : forall s r, add_outdents n s = Done r ->
  exists l, length l = n /\ Forall (fun t => t_type t = Outdent) l /\ sc_tokens r = (sc_tokens s ++ l)%list /\ sc_errors r = sc_errors s.
Proof.
  induction n as [|n IH]; intros s r; cbn [add_outdents]; intros Q.
  - injection Q as <-. exists nil. rewrite app_nil_r. auto.
  - destruct (add_token Outdent s) as [s1| | |] eqn:A; cbn [obind] in Q; try discriminate.
    destruct (add_done _ _ _ A) as (t & K & T & E). destruct (IH _ _ Q) as (l & L & F & T2 & E2). exists (t :: l).
    rewrite T2, E2, T, E, <- app_assoc. cbn. auto.
Qed.
Theorem result_steps U gs r : scan_tokens U gs = Done r -> exists n s, steps U n (scanner_new gs) s /\ is_at_end s = true /\
  match r with
  | Ok toks => sc_errors s = nil /\ exists l e, toks = (sc_tokens s ++ l ++ [e])%list /\ length l = length (sc_indentation s) /\
      Forall (fun t => t_type t = Outdent) l /\ t_type e = Eof
  | Err errs => errs = sc_errors s
  end.
Proof.
  unfold scan_tokens, scan_tokens_from. intros Q. destruct (scan_loop U _ _) as [u| | |] eqn:L; cbn [obind] in Q; try discriminate.
  destruct (loop_all U _ _ _ L) as (n & A & B). exists n, u. split; [exact A|]. split; [exact B|].
  unfold close_all_blocks in Q. cbv zeta in Q.
  destruct (add_outdents _ _) as [v| | |] eqn:O; cbn [obind] in Q; try discriminate.
  destruct (outdents_done _ _ _ O) as (l & N & F & T & E). 
  match type of Q with context [add_token Eof ?x] => destruct (add_token Eof x) as [w| | |] eqn:W end; cbn [obind] in Q; try discriminate.
  destruct (add_done _ _ _ W) as (e & K & T2 & E2). cbn in T, E, T2, E2, N. rewrite T in T2. rewrite E in E2. cbn [snd] in Q. rewrite T2, E2 in Q.
  destruct (sc_errors u) as [|c cs]; injection Q as <-; auto. split; auto. exists l, e. rewrite <- app_assoc. auto.
Qed.
