(** Using a scanner or a parser directly: complete token lists, call sequences, and scanning again. *)
From Verif Require Import Base F64 Token Ast Scanner Parser ParserApi SpecGrammar SpecParse SpecLex SpecScan ScanFinal
  ParseRun ParseSound ParseTop Progress Beyond ApiTop.
From Coq Require Import Lia.

(** A number or string token carries its value. *)
Definition valued (t : token) : Prop :=
  (t_type t = Number -> t_float t <> None) /\ (t_type t = TString -> t_string t <> None).

Section Whole.
Variables pre post : list token.
Variable eof : token.
Hypothesis E : t_type eof = Eof.
Hypothesis NE : Forall (fun t => t_type t <> Eof) pre.
Hypothesis VA : Forall valued pre.
Variables trailing oc : bool.
Notation short := (pre ++ [eof]).

Lemma short_ok : tokens_ok short.
Proof.
  split.
  - exists pre, eof. auto.
  - apply Forall_app. split; [eapply Forall_impl; [|exact VA]; intros t [A _]; exact A|].
    repeat constructor; rewrite E; discriminate.
  - apply Forall_app. split; [eapply Forall_impl; [|exact VA]; intros t [_ A]; exact A|].
    repeat constructor; rewrite E; discriminate.
Qed.
Lemma short_length : length short = S (length pre).
Proof. rewrite app_length. cbn. lia. Qed.
Lemma short_first : first_eof short = length pre.
Proof. now apply first_split. Qed.
Lemma parse_returns s : cur s < length short -> exists u r, parser_parse short trailing oc s = Done (u, r).
Proof.
  intros L. unfold parser_parse.
  destruct (parse_loop_spec short trailing oc short_ok (loop_fuel short) nil nil s) as (st & es & s' & -> & L' & E' & _).
  - exact L.
  - unfold loop_fuel. lia.
  - cbn [obind app]. rewrite (consume_eof short oc s' L' E'). eauto.
Qed.
Lemma valid_some s : pre <> nil -> cur s < length short -> valid short s.
Proof.
  intros N L. split; [exact L|]. intros Z. unfold rest. rewrite Z. destruct pre as [|t r]; [contradiction|].
  inversion NE; subst. cbn. intuition.
Qed.
Lemma expression_returns s : pre <> nil -> cur s < length short -> exists u r, parser_parse_expression short trailing oc s = Done (u, r).
Proof.
  intros N L. unfold parser_parse_expression.
  destruct (level_sound short trailing oc short_ok (nesting_fuel short)) as (HE & _ & _).
  specialize (HE (inside s) s (conj (valid_some s N L) eq_refl)). unfold room, nesting_fuel in HE.
  specialize (HE ltac:(lia)). unfold ParseRun.run in HE. fold (nesting_fuel short) in HE.
  unfold pbind at 1. destruct (k_expr (level short trailing oc (nesting_fuel short)) s) as [e s1|c s1|w|]; [|eauto|tauto|tauto].
  destruct HE as [(V1 & _) _]. destruct (valid_rest short s1 V1) as (t & i & R). unfold pbind at 1.
  destruct (is_at_end short s1) eqn:Q.
  - rewrite (consume_eof short oc s1 (proj1 V1) Q). cbn. eauto.
  - assert (K : tt_eqb (t_type t) Eof = false).
    { unfold is_at_end in Q. now rewrite rest_nth, R in Q. }
    unfold consume, consume_any_of, matches, gets, pbind at 1 2. rewrite rest_nth, R.
    cbn [hd_error tt_mem existsb]. rewrite K. cbn [orb].
    unfold error_from_peek, peek_source_loc, gets, pbind. cbn. rewrite rest_nth, R. cbn. eauto.
Qed.
Lemma short_calls cs : pre <> nil -> forall s, within short s -> exists rs, calls_from short trailing oc cs s = Done rs.
Proof.
  intros N. induction cs as [|c cs IH]; intros s W; cbn [calls_from]; [eauto|].
  assert (L : cur s < length short) by (unfold within in W; rewrite short_first in W; rewrite short_length; lia).
  pose proof (call_goes short trailing oc c s W) as G.
  assert (exists u r, parser_call short trailing oc c s = Done (u, r)) as (u & r & Q).
  { destruct c; cbn [parser_call].
    - destruct (parse_returns s L) as (u & r & ->). cbn. eauto.
    - destruct (expression_returns s N L) as (u & r & ->). cbn. eauto. }
  rewrite Q in *. cbn [obind fst snd]. destruct (IH u G) as (rs & ->). cbn. eauto.
Qed.
(** A list with something before its first end-of-file token, and its values in place: no call panics. *)
Lemma calls_return cs : pre <> nil -> exists rs, parser_calls (pre ++ eof :: post) trailing oc cs = Done rs.
Proof.
  intros N. rewrite (after_eof pre post nil eof E NE). apply (short_calls cs N). apply start_within.
Qed.
Lemma parse_return : exists r, parse_tokens (pre ++ eof :: post) trailing oc = Done r.
Proof.
  rewrite parse_is. rewrite (parse_after pre post nil eof E NE) by apply start_within.
  destruct (parse_returns (mkP 0 0)) as (u & r & ->); [cbn; rewrite app_length; cbn; lia|]. cbn. eauto.
Qed.
End Whole.

(** ** What follows a call of [parse] *)
Definition last_error (pre : list token) : cause :=
  match rev pre with
  | t :: _ => cause_at (tloc t) (t_lexeme t) "Expect expression."
  | nil => cause_new default_loc "Expect expression."
  end.
Definition again (pre : list token) (c : request) : reply :=
  match c with
  | AskParse => GotStatements (Ok nil)
  | AskExpression => GotExpression (Err [last_error pre])
  end.
Section Sequence.
Variables pre post : list token.
Variable eof : token.
Hypothesis E : t_type eof = Eof.
Hypothesis NE : Forall (fun t => t_type t <> Eof) pre.
Variables trailing oc : bool.
Notation toks := (pre ++ eof :: post).
Lemma toks_first : first_eof toks = length pre.
Proof. now apply first_split. Qed.
Lemma toks_there : nth_error toks (first_eof toks) = Some eof.
Proof. rewrite toks_first, nth_error_app2, Nat.sub_diag by lia. reflexivity. Qed.
Lemma calls_again cs : forall s, finished toks s -> pre <> nil \/ oc = false ->
  calls_from toks trailing oc cs s = Done (map (again pre) cs).
Proof.
  induction cs as [|c cs IH]; intros s F O; cbn [calls_from map]; auto.
  assert (parser_call toks trailing oc c s = Done (s, again pre c)) as ->.
  { destruct c; cbn [parser_call].
    - now rewrite (parse_again toks trailing oc s eof F toks_there).
    - rewrite (expression_again toks trailing oc s eof F toks_there), toks_first. unfold again, last_error.
      destruct pre as [|x r] using rev_ind; cbn [length].
      + destruct O as [O|O]; [contradiction|]. rewrite O. reflexivity.
      + rewrite app_length, Nat.add_1_r, rev_app_distr. cbn [rev app].
        rewrite <- app_assoc. cbn [app]. rewrite nth_error_app2, Nat.sub_diag by lia. reflexivity. }
  cbn [obind fst snd]. rewrite (IH s F O). reflexivity.
Qed.
Lemma sequence r cs : parse_tokens toks trailing oc = Done r -> pre <> nil \/ oc = false ->
  parser_calls toks trailing oc (AskParse :: cs) = Done (GotStatements r :: map (again pre) cs).
Proof.
  rewrite parse_is. intros H O. unfold parser_calls. cbn [calls_from parser_call].
  pose proof (parse_goes toks trailing oc (mkP 0 0) (start_within toks)) as G.
  destruct (parser_parse toks trailing oc (mkP 0 0)) as [[u q]| | |]; cbn [obind fst snd] in *; try discriminate.
  injection H as ->. now rewrite (calls_again cs u G O).
Qed.
Lemma sequence_parses r n : parse_tokens toks trailing oc = Done r ->
  parser_calls toks trailing oc (AskParse :: repeat AskParse n) = Done (GotStatements r :: repeat (GotStatements (Ok nil)) n).
Proof.
  rewrite parse_is. intros H. unfold parser_calls. cbn [calls_from parser_call].
  pose proof (parse_goes toks trailing oc (mkP 0 0) (start_within toks)) as G.
  destruct (parser_parse toks trailing oc (mkP 0 0)) as [[u q]| | |]; cbn [obind fst snd] in *; try discriminate.
  injection H as ->.
  assert (calls_from toks trailing oc (repeat AskParse n) u = Done (repeat (GotStatements (Ok nil)) n)) as ->; [|reflexivity].
  induction n as [|n IH]; cbn [repeat calls_from]; auto. cbn [parser_call].
  rewrite (parse_again toks trailing oc u eof G toks_there). cbn [obind fst snd]. now rewrite IH.
Qed.
End Sequence.

(** ** No end-of-file token *)
Lemma no_eof_calls toks trailing oc cs rs : Forall (fun t => t_type t <> Eof) toks ->
  parser_calls toks trailing oc cs = Done rs ->
  Forall (fun r => match r with
                   | GotStatements (Ok _) | GotExpression (Ok _) => False
                   | _ => True
                   end) rs.
Proof.
  intros NE. unfold parser_calls. generalize (start_within toks). generalize (mkP 0 0). revert rs.
  induction cs as [|c cs IH]; intros rs s W; cbn [calls_from].
  - intros H. injection H as <-. constructor.
  - pose proof (call_goes toks trailing oc c s W) as G.
    destruct (parser_call toks trailing oc c s) as [[u r]| | |] eqn:Q; cbn [obind fst snd] in *; try discriminate.
    destruct (calls_from toks trailing oc cs u) as [rs'| | |] eqn:Q'; cbn [obind]; try discriminate.
    intros H. injection H as <-. constructor; [|now apply (IH rs' u)].
    destruct c; cbn [parser_call] in Q.
    + destruct (parser_parse toks trailing oc s) as [[v q]| | |] eqn:R; cbn in Q; try discriminate.
      injection Q as <- <-. destruct q as [l|]; [|exact I]. exact (no_eof_parse toks trailing oc s l v NE W R).
    + destruct (parser_parse_expression toks trailing oc s) as [[v q]| | |] eqn:R; cbn in Q; try discriminate.
      injection Q as <- <-. destruct q as [l|]; [|exact I]. exact (no_eof_expression toks trailing oc s l v NE R).
Qed.

(** ** Scanning again *)
Section Again.
Variable U : unicode.
Lemma loop_at_end : forall n s u, scan_loop U n s = Done u -> Scanner.is_at_end u = true.
Proof.
  induction n as [|n IH]; intros s u; cbn [scan_loop]; destruct (Scanner.is_at_end s) eqn:Q; intros H; try discriminate.
  - injection H as <-. auto.
  - injection H as <-. auto.
  - destruct (scan_token U _) as [v| | |]; cbn [obind] in H; try discriminate. eauto.
Qed.
Lemma loop_stays n s : Scanner.is_at_end s = true -> scan_loop U n s = Done s.
Proof. intros Q. destruct n; cbn [scan_loop]; now rewrite Q. Qed.
Definition pushes (ts : list token) (s : scanner) : scanner := set_tokens (sc_tokens s ++ ts) s.
Lemma push_pushes t s : push_token t s = pushes [t] s.
Proof. reflexivity. Qed.
Definition mark (x : string) (s : scanner) (k : token_type) : token := mkToken k x None None (sc_line s) (sc_start_column s).
Lemma pushes_more a b s : pushes b (pushes a s) = pushes (a ++ b) s.
Proof. destruct s. unfold pushes, set_tokens. cbn. now rewrite app_assoc. Qed.
Lemma add_is k s u : add_token k s = Done u -> exists x, source_slice s (sc_start s) (peek_index s) = Done x /\ u = pushes [mark x s k] s.
Proof.
  unfold add_token. destruct (source_slice s (sc_start s) (peek_index s)) as [x| | |]; cbn [obind]; try discriminate.
  intros H. injection H as <-. exists x. auto.
Qed.
Lemma slice_pushes ts s a b : source_slice (pushes ts s) a b = source_slice s a b.
Proof. destruct s. reflexivity. Qed.
Lemma slice_same x s k ts : source_slice s (sc_start s) (peek_index s) = Done x -> add_token k (pushes ts s) = Done (pushes (ts ++ [mark x s k]) s).
Proof.
  intros H. unfold add_token. rewrite slice_pushes.
  change (sc_start (pushes ts s)) with (sc_start s). change (peek_index (pushes ts s)) with (peek_index s). rewrite H. cbn [obind].
  rewrite push_pushes. change (sc_line (pushes ts s)) with (sc_line s). change (sc_start_column (pushes ts s)) with (sc_start_column s).
  now rewrite pushes_more.
Qed.
Lemma outdents_is x s : source_slice s (sc_start s) (peek_index s) = Done x ->
  forall n ts, add_outdents n (pushes ts s) = Done (pushes (ts ++ repeat (mark x s Outdent) n) s).
Proof.
  intros H. induction n as [|n IH]; intros ts; cbn [add_outdents repeat]; [now rewrite app_nil_r|].
  rewrite (slice_same x s Outdent ts H). cbn [obind]. rewrite IH, <- app_assoc. reflexivity.
Qed.
Lemma pushes_nil s : pushes nil s = s.
Proof. destruct s. unfold pushes, set_tokens. cbn. now rewrite app_nil_r. Qed.
Lemma outdents_slice n s u v : add_outdents n s = Done u -> add_token Eof u = Done v ->
  exists x, source_slice s (sc_start s) (peek_index s) = Done x.
Proof.
  destruct n; cbn [add_outdents]; intros A B.
  - injection A as <-. apply add_is in B. destruct B as (x & B & _). eauto.
  - destruct (add_token Outdent s) as [w| | |] eqn:Q; try discriminate. apply add_is in Q. destruct Q as (x & Q & _). eauto.
Qed.
Definition closing_tokens (x : string) (line column : N) (k : nat) : list token :=
  repeat (mkToken Outdent x None None line column) k ++ [mkToken Eof x None None line column].
Lemma settled u x : Scanner.is_at_end u = true -> sc_tokens u = nil -> sc_errors u = nil -> sc_start_column u = sat_pred (sc_column u) ->
  source_slice u (sc_start u) (peek_index u) = Done x ->
  scan_tokens_from U u = Done (u, Ok (closing_tokens x (sc_line u) (sc_start_column u) (length (sc_indentation u)))).
Proof.
  intros L T R C X. unfold scan_tokens_from. rewrite loop_stays by exact L. cbn [obind]. unfold close_all_blocks. cbv zeta.
  assert (Q : set_start_column (sat_pred (sc_column u)) u = u) by (destruct u; cbn in *; subst; reflexivity). rewrite Q.
  pose proof (outdents_is x u X (length (sc_indentation u)) nil) as P'. rewrite pushes_nil in P'. rewrite P'. cbn [obind app].
  rewrite (slice_same x u Eof _ X). cbn [obind]. destruct u. cbn in *. subst. reflexivity.
Qed.
Lemma scan_again s u r : scan_tokens_from U s = Done (u, r) ->
  exists x line column k,
    scan_tokens_from U u = Done (u, Ok (closing_tokens x line column k)) /\
    match r with
    | Ok toks => exists body, toks = body ++ closing_tokens x line column k
    | Err _ => True
    end.
Proof.
  unfold scan_tokens_from at 1. intros H.
  destruct (scan_loop U (Datatypes.S (length (sc_gi s))) s) as [s1| | |] eqn:L; cbn [obind] in H; try discriminate.
  apply loop_at_end in L. unfold close_all_blocks in H. set (s2 := set_start_column (sat_pred (sc_column s1)) s1) in *.
  destruct (add_outdents (length (sc_indentation s2)) s2) as [s3| | |] eqn:A; cbn [obind] in H; try discriminate.
  destruct (add_token Eof s3) as [s4| | |] eqn:B; cbn [obind] in H; try discriminate.
  destruct (outdents_slice _ _ _ _ A B) as (x & X).
  pose proof (outdents_is x s2 X (length (sc_indentation s2)) nil) as P. rewrite pushes_nil in P. rewrite P in A. injection A as <-.
  rewrite (slice_same x s2 Eof _ X) in B. injection B as <-. cbn [app] in H. injection H as <- <-.
  set (cl := repeat (mark x s2 Outdent) (length (sc_indentation s2)) ++ [mark x s2 Eof]) in *.
  exists x, (sc_line s2), (sc_start_column s2), (length (sc_indentation s2)).
  change (closing_tokens x (sc_line s2) (sc_start_column s2) (length (sc_indentation s2))) with cl. split.
  - rewrite (settled _ x); [reflexivity|exact L|reflexivity|reflexivity|reflexivity|exact X].
  - destruct (sc_errors s1); auto. exists (sc_tokens s1). reflexivity.
Qed.
Lemma scans_stay s q : scan_tokens_from U s = Done (s, q) -> forall n, scans_from U n s = Done (repeat q n).
Proof. intros H. induction n as [|n IH]; cbn [scans_from repeat]; auto. rewrite H. cbn [obind fst snd]. now rewrite IH. Qed.
End Again.

Lemma count_app k a b : count_kind k (a ++ b) = count_kind k a + count_kind k b.
Proof. unfold count_kind. now rewrite filter_app, app_length. Qed.
Lemma count_outdents k x line column n : count_kind k (closing_tokens x line column n) = (if tt_eqb Outdent k then n else 0) + (if tt_eqb Eof k then 1 else 0).
Proof.
  unfold closing_tokens. rewrite count_app. f_equal.
  - unfold count_kind. induction n as [|n IH]; cbn [repeat filter t_type]; [now destruct (tt_eqb Outdent k)|].
    revert IH. destruct k; cbn; auto.
  - destruct k; reflexivity.
Qed.
Lemma scans_are U gs r : scan_tokens U gs = Done r ->
  exists x line column k, forall n,
    scanner_calls U gs (Datatypes.S n) = Done (r :: repeat (Ok (closing_tokens x line column k)) n) /\
    match r with
    | Ok toks => exists body, toks = body ++ closing_tokens x line column k
    | Err _ => True
    end.
Proof.
  unfold scan_tokens, scanner_calls. destruct (scan_tokens_from U (scanner_new gs)) as [[u q]| | |] eqn:H; cbn [obind snd]; try discriminate.
  intros Q. injection Q as <-. destruct (scan_again U _ _ _ H) as (x & line & column & k & A & B).
  exists x, line, column, k. intros n. split; auto. cbn [scans_from]. rewrite H. cbn [obind fst snd].
  now rewrite (scans_stay U u _ A n).
Qed.

Lemma valued_dec t : valued t \/ (t_type t = Number /\ t_float t = None) \/ (t_type t = TString /\ t_string t = None).
Proof.
  unfold valued. destruct (t_type t) eqn:Q; try (left; split; congruence).
  - destruct (t_string t) eqn:R; [left|right]; auto; split; congruence.
  - destruct (t_float t) eqn:R; [left|right]; auto; split; congruence.
Qed.
Lemma all_valued l : Forall valued l \/
  exists t, In t l /\ (t_type t = Number /\ t_float t = None \/ t_type t = TString /\ t_string t = None).
Proof.
  induction l as [|t r [IH|(u & I & V)]]; [left; constructor| |right; exists u; cbn; auto].
  destruct (valued_dec t) as [V|V]; [left; constructor; auto|right; exists t; cbn; auto].
Qed.
(** What every panic comes from. *)
Lemma panics toks trailing oc cs w : parser_calls toks trailing oc cs = Panicked w ->
  Forall (fun t => t_type t <> Eof) toks \/
  exists pre eof post, toks = pre ++ eof :: post /\ t_type eof = Eof /\ Forall (fun t => t_type t <> Eof) pre /\
    (pre = nil \/
     exists t, In t pre /\ (t_type t = Number /\ t_float t = None \/ t_type t = TString /\ t_string t = None)).
Proof.
  intros H. destruct (first_cases toks) as [(_ & F & _)|(eof & pre & post & _ & E & -> & F & _)]; auto.
  right. exists pre, eof, post. repeat apply conj; auto.
  destruct (all_valued pre) as [V|V]; auto. left. destruct pre as [|t r]; auto. exfalso.
  destruct (calls_return (t :: r) post eof E F V trailing oc cs) as (rs & R); [discriminate|congruence].
Qed.
(** Only the end-of-file token: the first call is accepted or, for an expression, looks before the list. *)
Lemma empty_list trailing oc cs : parser_calls nil trailing oc (AskParse :: cs) =
  if oc then Panicked "attempt to subtract with overflow"
  else olet rs <- parser_calls nil trailing false cs ;; Done (GotStatements (Err [cause_new default_loc "Expected end of file"]) :: rs).
Proof. destruct oc; [reflexivity|]. unfold parser_calls. cbn [calls_from]. reflexivity. Qed.
Lemma scans_balance U gs toks : sane U -> valid_source gs -> scan_tokens U gs = Done (Ok toks) ->
  exists body x line column k, toks = body ++ closing_tokens x line column k /\
    count_kind Indent body = count_kind Outdent body + k /\
    forall n, scanner_calls U gs (S n) = Done (Ok toks :: repeat (Ok (closing_tokens x line column k)) n).
Proof.
  intros Sn V H. destruct (scans_are U gs _ H) as (x & line & column & k & A).
  destruct (A 0) as (_ & body & B). exists body, x, line, column, k. split; auto. split; [|intros n; apply A].
  destruct (balanced U Sn gs toks V H) as [_ C]. rewrite B, !count_app, !count_outdents in C. cbn in C. lia.
Qed.
Lemma scans_end U gs n : sane U -> valid_source gs ->
  (exists rs, scanner_calls U gs n = Done rs /\ length rs = n) \/ (scanner_calls U gs n = Diverged /\ scan_tokens U gs = Diverged).
Proof.
  intros Sn V. destruct n as [|n]; [left; exists nil; auto|].
  destruct (never_panics U Sn gs V) as [(r & R)|R].
  - destruct (scans_are U gs r R) as (x & line & column & k & A). destruct (A n) as [B _]. left.
    eexists. split; [exact B|]. cbn. now rewrite repeat_length.
  - right. split; auto. unfold scanner_calls, scan_tokens in *. cbn [scans_from].
    destruct (scan_tokens_from U (scanner_new gs)) as [[u q]| | |]; cbn in *; auto; discriminate.
Qed.
