(** What using a scanner or a parser directly gives. *)
From Verif Require Import Base F64 Token Ast Scanner Parser ParserApi SpecParse SpecLex SpecScan ScanFinal
  ParseTop ParseProps Progress Beyond.
From Coq Require Import Lia.

(** ** Where the parser stops *)
Fixpoint first_eof (l : list token) : nat :=
  match l with
  | nil => 0
  | t :: r => if tt_eqb (t_type t) Eof then 0 else S (first_eof r)
  end.
Lemma first_before l : forall i, i < first_eof l -> exists t, nth_error l i = Some t /\ t_type t <> Eof.
Proof.
  induction l as [|t r IH]; cbn; intros i L; [lia|]. destruct (tt_eqb (t_type t) Eof) eqn:Q; [lia|].
  destruct i as [|i]; cbn.
  - exists t. split; auto. intros E. rewrite E in Q. discriminate.
  - apply IH. lia.
Qed.
Lemma first_cases l : (nth_error l (first_eof l) = None /\ Forall (fun t => t_type t <> Eof) l /\ first_eof l = length l) \/
  exists t pre post, nth_error l (first_eof l) = Some t /\ t_type t = Eof /\ l = pre ++ t :: post /\
    Forall (fun t => t_type t <> Eof) pre /\ first_eof l = length pre.
Proof.
  induction l as [|t r IH]; cbn.
  - left. auto.
  - destruct (tt_eqb (t_type t) Eof) eqn:Q.
    + right. exists t, nil, r. cbn. repeat apply conj; auto. destruct (t_type t); auto; discriminate.
    + assert (N : t_type t <> Eof) by (intros E; rewrite E in Q; discriminate). cbn.
      destruct IH as [(A & B & C)|(u & pre & post & A & B & C & D & E)].
      * left. auto.
      * right. exists u, (t :: pre), post. cbn. repeat apply conj; auto. now rewrite C at 1.
Qed.
Lemma first_here l n : is_at_end l (mkP (first_eof l) n) = true.
Proof.
  unfold is_at_end, peek. cbn. destruct (first_cases l) as [(-> & _)|(t & _ & _ & -> & E & _)]; auto. now rewrite E.
Qed.
Lemma first_split pre e post : t_type e = Eof -> Forall (fun t => t_type t <> Eof) pre -> first_eof (pre ++ e :: post) = length pre.
Proof.
  intros E F. induction F as [|t r N F IH]; cbn; [now rewrite E|]. destruct (tt_eqb (t_type t) Eof) eqn:Q; [|now rewrite IH].
  exfalso. destruct (t_type t); auto; discriminate.
Qed.
Definition within (toks : list token) (s : pstate) : Prop := cur s <= first_eof toks.

(** ** Every call returns, or panics *)
Section Any.
Variable toks : list token.
Variables trailing oc : bool.
Notation stop := (first_eof toks).
Lemma parse_goes s : within toks s ->
  match parser_parse toks trailing oc s with
  | Done (u, r) => cur u = stop
  | Panicked _ => True
  | Diverged | OutOfFuel => False
  end.
Proof.
  intros W. unfold parser_parse. pose proof (stop_length toks stop (first_before toks) (first_here toks)) as SL.
  assert (FL : stop - cur s <= loop_fuel toks) by (unfold loop_fuel; lia).
  pose proof (loop_goes toks trailing oc stop (first_before toks) (first_here toks) (loop_fuel toks) nil nil s W FL) as H.
  destruct (parse_loop toks trailing oc (loop_fuel toks) nil nil s) as [[[sts errs] u]| | |]; cbn [obind]; auto.
  pose proof (consume_eof_goes toks oc stop (first_before toks) (first_here toks) u H) as G.
  destruct (consume toks oc Eof _ u) as [x v|c v|w|]; auto; destruct G as [-> _]; auto.
Qed.
Lemma expression_goes s : within toks s ->
  match parser_parse_expression toks trailing oc s with
  | Done (u, r) => within toks u
  | Panicked _ => True
  | Diverged | OutOfFuel => False
  end.
Proof.
  intros W. unfold parser_parse_expression.
  destruct (pr_level toks trailing oc stop (first_before toks) (first_here toks) (nesting_fuel toks)) as (E & _ & _).
  specialize (E s W (nesting_enough toks stop (first_before toks) (first_here toks) s W)). unfold pbind.
  destruct (k_expr _ s) as [x u|c u|w|]; auto; [|unfold within; lia].
  assert (L : cur u <= stop) by lia.
  assert (G : match consume toks oc Eof "Expected end of file" u with POk _ v | PErr _ v => v = u | PPanic _ => True | PFuel => False end).
  { unfold consume, consume_any_of, matches, pbind, gets, pret.
    destruct (peek toks u) as [t|] eqn:Q.
    - destruct (tt_mem (t_type t) [Eof]) eqn:M.
      + cbn. unfold advance_st, is_at_end. rewrite Q. cbn in M. rewrite orb_false_r in M. now rewrite M.
      + unfold error_from_peek, peek_source_loc, pbind, gets. rewrite Q. reflexivity.
    - unfold error_from_peek, peek_source_loc, pbind, gets. rewrite Q.
      unfold previous. destruct (cur u); [destruct oc|]; cbn; auto. }
  destruct (consume toks oc Eof _ u); auto; subst; exact L.
Qed.
Lemma call_goes c s : within toks s ->
  match parser_call toks trailing oc c s with
  | Done (u, _) => within toks u
  | Panicked _ => True
  | Diverged | OutOfFuel => False
  end.
Proof.
  intros W. destruct c; cbn [parser_call].
  - pose proof (parse_goes s W) as H. destruct (parser_parse toks trailing oc s) as [[u r]| | |]; cbn; auto. unfold within. lia.
  - pose proof (expression_goes s W) as H. destruct (parser_parse_expression toks trailing oc s) as [[u r]| | |]; cbn; auto.
Qed.
Lemma calls_go cs : forall s, within toks s ->
  match calls_from toks trailing oc cs s with
  | Done _ | Panicked _ => True
  | Diverged | OutOfFuel => False
  end.
Proof.
  induction cs as [|c cs IH]; intros s W; cbn [calls_from]; auto.
  pose proof (call_goes c s W) as H. destruct (parser_call toks trailing oc c s) as [[u r]| | |]; cbn [obind fst snd]; auto.
  specialize (IH u H). destruct (calls_from toks trailing oc cs u); cbn; auto.
Qed.
Lemma start_within : within toks (mkP 0 0).
Proof. unfold within. cbn. lia. Qed.
Lemma calls_end cs : (exists rs, parser_calls toks trailing oc cs = Done rs) \/ exists w, parser_calls toks trailing oc cs = Panicked w.
Proof.
  pose proof (calls_go cs _ start_within) as H. unfold parser_calls. destruct (calls_from toks trailing oc cs (mkP 0 0)); eauto; contradiction.
Qed.

(** ** The first call is the entry point *)
Lemma parse_is : parse_tokens toks trailing oc = olet r <- parser_parse toks trailing oc (mkP 0 0) ;; Done (snd r).
Proof.
  unfold parse_tokens, parser_parse. destruct (parse_loop toks trailing oc (loop_fuel toks) nil nil (mkP 0 0)) as [[[sts errs] u]| | |]; auto.
  cbn [obind]. destruct (consume toks oc Eof _ u); reflexivity.
Qed.
Lemma expression_is : parse_expression_tokens toks trailing oc = olet r <- parser_parse_expression toks trailing oc (mkP 0 0) ;; Done (snd r).
Proof.
  unfold parse_expression_tokens, parser_parse_expression.
  match goal with |- match ?x with _ => _ end = _ => destruct x end; reflexivity.
Qed.

(** ** Later calls *)
Definition finished (s : pstate) : Prop := cur s = stop.
Lemma parse_again s eof : finished s -> nth_error toks stop = Some eof -> parser_parse toks trailing oc s = Done (s, Ok nil).
Proof.
  intros F E. pose proof (at_stop toks stop (first_here toks) s F) as A. unfold parser_parse.
  assert (parse_loop toks trailing oc (loop_fuel toks) nil nil s = Done (nil, nil, s)) as ->.
  { unfold loop_fuel. cbn [parse_loop]. now rewrite A. }
  cbn [obind]. pose proof (consume_eof_goes toks oc stop (first_before toks) (first_here toks) s F) as G.
  destruct (consume toks oc Eof _ s) as [x v|c v|w|]; [|destruct G; congruence|destruct G as (_ & Z & ->); cbn in *; discriminate|contradiction].
  now destruct G as [-> _].
Qed.

(** An expression at the end *)
Definition stops {A} (r : pres A) : Prop := match r with PErr _ _ | PPanic _ => True | _ => False end.
Definition lost {A B} (r : pres A) : pres B :=
  match r with PErr c s => PErr c s | PPanic w => PPanic w | _ => PFuel end.
Lemma bind_lost {A B} (f : P A) (h : A -> P B) s : stops (f s) -> pbind f h s = lost (f s).
Proof. unfold pbind. destruct (f s); cbn; auto; contradiction. Qed.
Lemma lost_stops {A B} (r : pres A) : stops r -> stops (@lost A B r).
Proof. destruct r; cbn; auto. Qed.
Lemma lost_same {A} (r : pres A) : stops r -> lost r = r.
Proof. destruct r; cbn; auto; contradiction. Qed.
Section AtEnd.
Variable s : pstate.
Variable eof : token.
Hypothesis F : finished s.
Hypothesis T : nth_error toks stop = Some eof.
Lemma end_peek : peek toks s = Some eof.
Proof. unfold peek. rewrite F. exact T. Qed.
Lemma end_at : is_at_end toks s = true.
Proof. exact (at_stop toks stop (first_here toks) s F). Qed.
Lemma end_type : t_type eof = Eof.
Proof. pose proof end_at as A. unfold is_at_end in A. rewrite end_peek in A. destruct (t_type eof); auto; discriminate. Qed.
Lemma end_match k : match_token toks k s = POk false s.
Proof. unfold match_token, check, pbind, gets, check_st. rewrite end_at. reflexivity. Qed.
Lemma end_matches ks : tt_mem Eof ks = false -> matches toks ks s = POk None s.
Proof. intros K. unfold matches, pbind, gets. rewrite end_peek, end_type, K. reflexivity. Qed.
Definition missing : pres expr := @error_from_last toks oc expr "Expect expression." s.
Lemma missing_stops : stops missing.
Proof. unfold missing, error_from_last, previous_source_loc, previous, pbind. destruct (cur s) eqn:C; [destruct oc|]; cbn; auto; now rewrite C. Qed.
Lemma end_expression er dr : expression toks oc er dr s = missing.
Proof.
  pose proof missing_stops as M.
  assert (primary toks oc er dr s = missing) as H1.
  { unfold primary, pbind at 1, gets. rewrite end_peek, end_type. unfold pbind, advance, advance_st. now rewrite end_at. }
  assert (call toks oc er dr s = missing) as H2.
  { unfold call. rewrite bind_lost; rewrite H1; auto using lost_same. }
  assert (unary toks oc er dr s = missing) as H3.
  { unfold unary, loop_fuel. cbn [unary_fuel]. unfold pbind at 1. rewrite end_matches by reflexivity. exact H2. }
  assert (multiplication toks oc er dr s = missing) as H4.
  { unfold multiplication. rewrite bind_lost; rewrite H3; auto using lost_same. }
  assert (addition toks oc er dr s = missing) as H5.
  { unfold addition. rewrite bind_lost; rewrite H4; auto using lost_same. }
  assert (comparison toks oc er dr s = missing) as H6.
  { unfold comparison. rewrite bind_lost; rewrite H5; auto using lost_same. }
  assert (equality toks oc er dr s = missing) as H7.
  { unfold equality. rewrite bind_lost; rewrite H6; auto using lost_same. }
  assert (and_ toks oc er dr s = missing) as H8.
  { unfold and_. rewrite bind_lost; rewrite H7; auto using lost_same. }
  assert (or_ toks oc er dr s = missing) as H9.
  { unfold or_. rewrite bind_lost; rewrite H8; auto using lost_same. }
  unfold expression, assignment. unfold pbind at 1. rewrite end_match. rewrite bind_lost; rewrite H9; auto using lost_same.
Qed.
Lemma expression_again : parser_parse_expression toks trailing oc s =
  match stop with
  | O => if oc then Panicked "attempt to subtract with overflow" else Done (s, Err [cause_new default_loc "Expect expression."])
  | S n => match nth_error toks n with
           | Some t => Done (s, Err [cause_at (tloc t) (t_lexeme t) "Expect expression."])
           | None => OutOfFuel
           end
  end.
Proof.
  unfold parser_parse_expression, nesting_fuel. cbn [level k_expr]. rewrite bind_lost; rewrite end_expression; [|apply missing_stops].
  unfold missing, error_from_last, previous_source_loc, previous, pbind. rewrite F. destruct stop as [|n] eqn:Z.
  - destruct oc; cbn; [auto|]. rewrite F, Z. reflexivity.
  - cbn. rewrite F, Z. destruct (first_before toks n) as (t & E & _); [lia|]. rewrite E. reflexivity.
Qed.
End AtEnd.

(** ** Without an end-of-file token nothing is accepted *)
Lemma no_eof_parse s l u : Forall (fun t => t_type t <> Eof) toks -> within toks s -> parser_parse toks trailing oc s = Done (u, Ok l) -> False.
Proof.
  intros NE W H. pose proof (parse_goes s W) as G. rewrite H in G. revert H. unfold parser_parse.
  pose proof (stop_length toks stop (first_before toks) (first_here toks)) as SL.
  assert (FL : stop - cur s <= loop_fuel toks) by (unfold loop_fuel; lia).
  pose proof (loop_goes toks trailing oc stop (first_before toks) (first_here toks) (loop_fuel toks) nil nil s W FL) as K.
  destruct (parse_loop toks trailing oc (loop_fuel toks) nil nil s) as [[[sts errs] v]| | |]; cbn [obind]; try discriminate.
  pose proof (consume_eof_goes toks oc stop (first_before toks) (first_here toks) v K) as X.
  destruct (consume toks oc Eof _ v) as [x y|c y|w|]; try discriminate. intros _. destruct X as (_ & t & X).
  destruct (first_cases toks) as [(N & _)|(u' & pre & post & A & B & C & _)]; [congruence|].
  rewrite C in NE. apply Forall_app in NE. destruct NE as [_ NE]. inversion NE; subst. contradiction.
Qed.
Lemma no_eof_expression s x u : Forall (fun t => t_type t <> Eof) toks -> parser_parse_expression toks trailing oc s = Done (u, Ok x) -> False.
Proof.
  intros NE. unfold parser_parse_expression. unfold pbind at 1. destruct (k_expr _ s) as [y v| | |]; try discriminate.
  unfold pbind at 1. destruct (consume toks oc Eof _ v) as [q r| | |] eqn:C; try discriminate. intros _. revert C.
  unfold consume, consume_any_of, matches, pbind, gets, pret. destruct (peek toks v) as [t|] eqn:Q.
  - rewrite Forall_forall in NE. apply nth_error_In in Q. specialize (NE t Q).
    assert (tt_mem (t_type t) [Eof] = false) as -> by (destruct (t_type t); auto; contradiction).
    unfold error_from_peek, pbind. destruct (gets _ _); try discriminate. destruct (peek_source_loc _ _ _); discriminate.
  - unfold error_from_peek, pbind. destruct (gets _ _); try discriminate. destruct (peek_source_loc _ _ _); discriminate.
Qed.
End Any.

(** ** Tokens after the first end-of-file token *)
Section After.
Variables pre post post' : list token.
Variable eof : token.
Hypothesis E : t_type eof = Eof.
Hypothesis NE : Forall (fun t => t_type t <> Eof) pre.
Variables trailing oc : bool.
Notation t1 := (pre ++ eof :: post).
Notation t2 := (pre ++ eof :: post').
Lemma within_same s : within t1 s -> within t2 s.
Proof. unfold within. now rewrite !(first_split pre eof) by auto. Qed.
Lemma within_length s : within t1 s -> cur s <= length pre.
Proof. unfold within. now rewrite (first_split pre eof) by auto. Qed.
Lemma parse_after s : within t1 s -> parser_parse t1 trailing oc s = parser_parse t2 trailing oc s.
Proof.
  intros W. pose proof (parse_goes t1 trailing oc s W) as G1. pose proof (parse_goes t2 trailing oc s (within_same s W)) as G2.
  revert G1 G2. unfold parser_parse. pose proof (within_length s W) as L.
  pose proof (loop_same pre post post' eof E trailing oc (loop_fuel t1) (loop_fuel t2) nil nil s L) as A.
  destruct (parse_loop t1 trailing oc (loop_fuel t1) nil nil s) as [[[sts errs] u]| | |],
    (parse_loop t2 trailing oc (loop_fuel t2) nil nil s) as [[[sts' errs'] u']| | |]; cbn [obind agree] in *; try contradiction; auto.
  - destruct A as (Q & <- & C). injection Q as <- <-.
    pose proof (sim_consume pre post post' eof E oc Eof "Expected end of file" u C) as B.
    destruct (consume t1 oc Eof _ u) as [x v|c v|w|], (consume t2 oc Eof _ u) as [x' v'|c' v'|w'|]; try contradiction; auto.
    + destruct B as (_ & <- & _). reflexivity.
    + destruct B as (<- & <- & _). reflexivity.
    + now subst.
  - now subst.
Qed.
Lemma expression_after s : within t1 s -> parser_parse_expression t1 trailing oc s = parser_parse_expression t2 trailing oc s.
Proof.
  intros W. pose proof (expression_goes t1 trailing oc s W) as G1. pose proof (expression_goes t2 trailing oc s (within_same s W)) as G2.
  revert G1 G2. unfold parser_parse_expression. pose proof (within_length s W) as L.
  destruct (sim_level pre post post' eof E trailing oc (nesting_fuel t1) (nesting_fuel t2)) as (SE & _ & _).
  pose proof (sim_bind pre _ _ (fun e => pdo consume t1 oc Eof "Expected end of file" ;; pret e)
    (fun e => pdo consume t2 oc Eof "Expected end of file" ;; pret e) SE
    (fun e => sim_bind pre _ _ _ _ (sim_consume pre post post' eof E oc Eof "Expected end of file") (fun _ => sim_ret pre e)) s L) as A.
  match goal with |- match match ?x with _ => _ end with _ => _ end -> match match ?y with _ => _ end with _ => _ end -> _ => destruct x as [a1 v|c v|w|], y as [a2 v'|c' v'|w'|] end;
  try contradiction; auto.
  - now destruct A as (<- & <- & _).
  - now destruct A as (<- & <- & _).
  - now subst.
Qed.
Lemma calls_after cs : forall s, within t1 s -> calls_from t1 trailing oc cs s = calls_from t2 trailing oc cs s.
Proof.
  induction cs as [|c cs IH]; intros s W; cbn [calls_from]; auto.
  assert (parser_call t1 trailing oc c s = parser_call t2 trailing oc c s) as <-.
  { destruct c; cbn [parser_call]; [now rewrite parse_after|now rewrite expression_after]. }
  pose proof (call_goes t1 trailing oc c s W) as G. destruct (parser_call t1 trailing oc c s) as [[u r]| | |]; cbn [obind fst snd]; auto.
  now rewrite IH.
Qed.
Lemma after_eof cs : parser_calls t1 trailing oc cs = parser_calls t2 trailing oc cs.
Proof. apply calls_after. apply start_within. Qed.
End After.
