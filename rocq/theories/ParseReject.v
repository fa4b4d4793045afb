(** When a parser function reports an error, it is the one of SpecReject.v. *)
From Verif Require Import Base F64 Token Ast Scanner Parser SpecGrammar ParseRun ParseSound
  ParseComplete SpecReject.
From Coq Require Import Lia.

Section Reject.
Variable toks : list token.
Variable trailing oc : bool.
Hypothesis OK : tokens_ok toks.
Variable ending : token.
Hypothesis ENDING : before_end toks = Some ending.

Notation rest := (rest toks).
Notation okay := (okay toks).
Notation run := (run toks).
Notation took := (took toks).
Notation ext := (ext toks).
Notation rejects := (rejects trailing ending).
Notation steps_of := (steps_of trailing ending).
Notation parses := (parses trailing).
Notation inside := SpecReject.inside.
Notation D b N s v s' := (derives trailing b N (rest s) v (rest s')).

(** ** Tokens ahead *)
Lemma ahead_iff : forall ks i, ahead ks i = true <-> starts ks i.
Proof.
  intros ks [|t i]; cbn; [split; [discriminate|contradiction]|]. apply tt_mem_iff.
Qed.
Lemma ahead_no : forall ks i, ahead ks i = false <-> ~ starts ks i.
Proof. intros. rewrite <- ahead_iff. destruct (ahead ks i); intuition discriminate. Qed.
Lemma bool_eq : forall a b : bool, (a = true <-> b = true) -> a = b.
Proof. intros [] [] H; auto; [symmetry; now apply H|now apply H]. Qed.
Lemma check_ahead : forall b k s, okay b s -> k <> Eof -> check_st toks k s = ahead [k] (rest s).
Proof. intros b k s O N. apply bool_eq. rewrite ahead_iff. apply check_iff; auto. apply O. Qed.
Lemma check_any_ahead : forall b ks s, okay b s -> ~ In Eof ks ->
  check_any_of_st toks ks s = ahead ks (rest s).
Proof. intros b k s O N. apply bool_eq. rewrite ahead_iff. apply check_any_iff; auto. apply O. Qed.
Lemma end_ahead : forall b s, okay b s -> is_at_end toks s = ahead [Eof] (rest s).
Proof. intros b s O. apply bool_eq. rewrite ahead_iff. apply at_end_iff; auto. apply O. Qed.
Lemma check_next_ahead : forall b k s, okay b s -> check_next_st toks k s = ahead [k] (tl (rest s)).
Proof.
  intros b k s O. apply bool_eq. rewrite ahead_iff, check_next_iff by (auto; apply O). split.
  - intros (t & c & r & -> & K). cbn. auto.
  - destruct (rest s) as [|t [|c r]]; cbn; try contradiction. intros [K|[]]. exists t, c, r. auto.
Qed.
Lemma entry_ahead_iff : forall i, entry_ahead i = true <-> entry_here i.
Proof.
  intros i. unfold entry_ahead. rewrite andb_true_iff, !ahead_iff. split.
  - destruct i as [|t [|c r]]; cbn [starts tl]; intros [H1 H2]; try contradiction.
    exists t, c, r. destruct H2 as [H2|[]]. auto.
  - intros (t & c & r & -> & I & K). cbn [starts tl]. split; auto. now left.
Qed.
Lemma separator_ahead_iff : forall i, separator_ahead i = true <-> exists r, separator i r.
Proof.
  intros i. unfold separator_ahead.
  rewrite orb_true_iff, andb_true_iff, orb_true_iff, entry_ahead_iff, !ahead_iff. split.
  - destruct i as [|t r]; cbn [starts tl]; [intros [[]|[[] _]]|]. intros [[H|[]]|[[H|[]] E]].
    + exists r. left. exists t. auto.
    + exists r. right. split; auto. exists t. auto.
  - intros [r [(t & -> & K)|[(t & -> & K) E]]]; cbn [starts tl]; [left; now left|].
    right. split; auto. now left.
Qed.
Lemma entry_ahead_eq : forall b s, okay b s ->
  check_any_of_st toks [Identifier; TString] s && check_next_st toks Colon s = entry_ahead (rest s).
Proof. intros b s O. apply bool_eq. rewrite entry_ahead_iff. apply entry_iff; auto. apply O. Qed.
Lemma separator_ahead_eq : forall b s, okay b s ->
  check_st toks Comma s || check_st toks Terminator s &&
    (check_next_any_of_st toks [Identifier; TString] s && check_next_next_st toks Colon s ||
     check_next_st toks RightBrace s) = separator_ahead (rest s).
Proof. intros b s O. apply bool_eq. rewrite separator_ahead_iff. apply separator_iff; auto. apply O. Qed.
Lemma ahead_took : forall ks t s s1, took t s s1 -> ahead ks (rest s) = tt_mem (t_type t) ks.
Proof. intros ks t s s1 [E _]. now rewrite E. Qed.

(** ** Errors along the steps *)
Definition Err (b : bool) (st : list step) {A} (m : P A) (s : pstate) : Prop :=
  forall c s', m s = PErr c s' -> exists lk : bool,
    rejects b st (rest s) (mkFailure c (rest s') lk) /\
    loops s' = loops s + if lk then 1 else 0.

Lemma e_ret : forall b st A (a : A) s, Err b st (pret a) s.
Proof. intros b st A a s c s' E. discriminate. Qed.
Lemma e_fuel : forall b st A s, Err b st (@pfuel A) s.
Proof. intros b st A s c s' E. discriminate. Qed.
Lemma e_panic : forall b st A w s, Err b st (@ppanic A w) s.
Proof. intros b st A w s c s' E. discriminate. Qed.
Lemma e_get : forall b st A B (g : pstate -> A) (f : A -> P B) s,
  Err b st (f (g s)) s -> Err b st (pbind (gets g) f) s.
Proof. auto. Qed.
Lemma e_ret_bind : forall b st A B (a : A) (f : A -> P B) s,
  Err b st (f a) s -> Err b st (pbind (pret a) f) s.
Proof. auto. Qed.
Lemma e_ext : forall b st A (m m' : P A) s, m s = m' s -> Err b st m' s -> Err b st m s.
Proof. intros b st A m m' s E H c s' X. apply H. congruence. Qed.
Lemma e_assoc : forall b st A B C (m : P A) (f : A -> P B) (g : B -> P C) s,
  Err b st (pbind m (fun x => pbind (f x) g)) s -> Err b st (pbind (pbind m f) g) s.
Proof.
  intros b st A B C m f g s. apply e_ext. unfold pbind. destruct (m s); reflexivity.
Qed.
Lemma e_look : forall b k st A (m : P A) s, Err b (k (rest s) ++ st) m s -> Err b (Look k :: st) m s.
Proof.
  intros b k st A m s H c s' E. destruct (H c s' E) as (lk & R & L). exists lk. split; auto.
  now apply rj_look.
Qed.
Lemma e_last : forall b p st A (m : P A) s, Err (inside b p) (steps_of (inside b p) p) m s ->
  Err b (Last p :: st) m s.
Proof.
  intros b p st A m s H c s' E. destruct (H c s' E) as (lk & R & L). exists lk. split; auto.
  now apply rj_last.
Qed.
Lemma e_then : forall b st A B (m : P A) (f : A -> P B) s, Err b st m s ->
  (forall a s1 c s', f a s1 <> PErr c s') -> Err b st (pbind m f) s.
Proof.
  intros b st A B m f s H N c s' E. unfold pbind in E. destruct (m s) as [a s1|c1 s1|w|] eqn:M; try discriminate.
  - now apply N in E.
  - injection E as -> ->. now apply H.
Qed.
Lemma e_sub : forall b p st A B (m : P A) (f : A -> P B) s Q, run b m s Q ->
  Err (inside b p) (steps_of (inside b p) p) m s ->
  (forall a s1, Q a s1 -> ext b s s1 -> okay b s1 ->
    parses b p (rest s) (rest s1) /\ Err b st (f a) s1) ->
  Err b (Sub p :: st) (pbind m f) s.
Proof.
  intros b p st A B m f s Q R H N c s' E. unfold pbind in E. unfold ParseRun.run in R.
  destruct (m s) as [a s1|c1 s1|w|] eqn:M; try discriminate.
  - destruct R as [X R]. destruct (N a s1 R X (ext_okay _ _ _ _ X)) as [PS HF].
    destruct (HF c s' E) as (lk & RJ & L). exists lk. split; [eapply rj_sub; eauto|].
    destruct X as (_ & _ & _ & <-). exact L.
  - injection E as -> ->. destruct (H c s' M) as (lk & RJ & L). exists lk. split; auto.
    now apply rj_sub_bad.
Qed.
(** A part that cannot fail. *)
Lemma e_pass : forall b st A B (m : P A) (f : A -> P B) s a s1, m s = POk a s1 ->
  rest s1 = rest s -> loops s1 = loops s -> Err b st (f a) s1 -> Err b st (pbind m f) s.
Proof.
  intros b st A B m f s a s1 M R L H c s' E. unfold pbind in E. rewrite M in E.
  destruct (H c s' E) as (lk & RJ & LL). exists lk. rewrite <- R, <- L. auto.
Qed.

Lemma skip_err : forall b st A (m : P A) s s1 t, took t s s1 -> loops s1 = loops s ->
  Err b st m s1 -> forall c s', m s1 = PErr c s' -> exists lk : bool,
    rejects b (Skip :: st) (rest s) (mkFailure c (rest s') lk) /\ loops s' = loops s + if lk then 1 else 0.
Proof.
  intros b st A m s s1 t [E _] L H c s' M. destruct (H c s' M) as (lk & RJ & LL).
  exists lk. rewrite E, <- L. split; auto. now constructor.
Qed.
Lemma e_advance : forall b st A (f : unit -> P A) s t i, okay b s -> rest s = t :: i ->
  t_type t <> Eof ->
  (forall s1, took t s s1 -> ext b s s1 -> okay b s1 -> Err b st (f tt) s1) ->
  Err b (Skip :: st) (pbind (advance toks) f) s.
Proof.
  intros b st A f s t i O E N H c s' M.
  destruct (advance_took toks OK s t i (proj1 O) E N) as (V & T & L).
  assert (X := ext_took toks b s _ t O V L T).
  eapply skip_err; [exact T|exact L|apply H; auto; eapply ext_okay; eauto|exact M].
Qed.
Lemma matches_yes : forall b ks s, okay b s -> ~ In Eof ks -> ahead ks (rest s) = true ->
  exists t s1, matches toks ks s = POk (Some (t_type t, tloc t)) s1 /\ took t s s1 /\
    In (t_type t) ks /\ ext b s s1.
Proof.
  intros b ks s O N A. destruct (valid_rest toks s (proj1 O)) as (t & i & E).
  rewrite E in A. cbn in A. exists t, (advance_st toks s).
  assert (I : In (t_type t) ks) by now apply tt_mem_iff.
  assert (NE : t_type t <> Eof) by congruence.
  destruct (advance_took toks OK s t i (proj1 O) E NE) as (V & T & L).
  split; [|split; [exact T|split; [exact I|eapply ext_took; eauto]]].
  unfold matches, pbind, gets, advance, pret. rewrite rest_nth, E. cbn [hd_error].
  unfold tt_mem. now rewrite A.
Qed.
Lemma matches_no : forall b ks s, okay b s -> ahead ks (rest s) = false ->
  matches toks ks s = POk None s.
Proof.
  intros b ks s O A. destruct (valid_rest toks s (proj1 O)) as (t & i & E).
  unfold matches, pbind, gets. rewrite rest_nth, E. cbn [hd_error]. rewrite E in A. cbn in A.
  unfold tt_mem. now rewrite A.
Qed.
Lemma e_matches_yes : forall b st ks A (f : option (token_type * source_loc) -> P A) s, okay b s ->
  ~ In Eof ks -> ahead ks (rest s) = true ->
  (forall s1 t, took t s s1 -> In (t_type t) ks -> ext b s s1 -> okay b s1 ->
    Err b st (f (Some (t_type t, tloc t))) s1) ->
  Err b (Skip :: st) (pbind (matches toks ks) f) s.
Proof.
  intros b st ks A f s O N H1 H c s' M. destruct (matches_yes b ks s O N H1) as (t & s1 & E & T & I & X).
  unfold pbind in M. rewrite E in M.
  eapply skip_err; [exact T|apply X|apply (H s1 t); auto; eapply ext_okay; eauto|exact M].
Qed.
Lemma e_matches_no : forall b st ks A (f : option (token_type * source_loc) -> P A) s, okay b s ->
  ahead ks (rest s) = false -> Err b st (f None) s -> Err b st (pbind (matches toks ks) f) s.
Proof.
  intros b st ks A f s O H1 H. eapply e_pass; [eapply matches_no; eauto| | |]; auto.
Qed.
Lemma match_token_yes : forall b k s, okay b s -> k <> Eof -> ahead [k] (rest s) = true ->
  exists t s1, match_token toks k s = POk true s1 /\ took t s s1 /\ t_type t = k /\ ext b s s1.
Proof.
  intros b k s O N A. assert (CH := check_ahead b k s O N). rewrite A in CH.
  destruct (valid_rest toks s (proj1 O)) as (t & i & E). rewrite ahead_iff, E, starts_one in A.
  destruct (advance_took toks OK s t i (proj1 O) E ltac:(congruence)) as (V & T & L).
  exists t, (advance_st toks s).
  split; [|split; [exact T|split; [exact A|eapply ext_took; eauto]]].
  unfold match_token, check, gets, pbind, advance, pret. now rewrite CH.
Qed.
Lemma match_token_no : forall b k s, okay b s -> k <> Eof -> ahead [k] (rest s) = false ->
  match_token toks k s = POk false s.
Proof.
  intros b k s O N A. unfold match_token, check, gets, pbind, pret.
  now rewrite (check_ahead b k s O N), A.
Qed.
Lemma e_match_yes : forall b st k A (f : bool -> P A) s, okay b s -> k <> Eof ->
  ahead [k] (rest s) = true ->
  (forall s1 t, took t s s1 -> t_type t = k -> ext b s s1 -> okay b s1 -> Err b st (f true) s1) ->
  Err b (Skip :: st) (pbind (match_token toks k) f) s.
Proof.
  intros b st k A f s O N H1 H c s' M.
  destruct (match_token_yes b k s O N H1) as (t & s1 & E & T & I & X).
  unfold pbind in M. rewrite E in M.
  eapply skip_err; [exact T|apply X|apply (H s1 t); auto; eapply ext_okay; eauto|exact M].
Qed.
Lemma e_match_no : forall b st k A (f : bool -> P A) s, okay b s -> k <> Eof ->
  ahead [k] (rest s) = false -> Err b st (f false) s -> Err b st (pbind (match_token toks k) f) s.
Proof. intros b st k A f s O N H1 H. eapply e_pass; [eapply match_token_no; eauto| | |]; auto. Qed.
Lemma e_maybe : forall b st k A (f : bool -> P A) s, okay b s -> k <> Eof ->
  (forall x s1, ext b s s1 -> okay b s1 -> optional k (rest s) (rest s1) -> Err b st (f x) s1) ->
  Err b (maybe k :: st) (pbind (match_token toks k) f) s.
Proof.
  intros b st k A f s O N H. apply e_look. destruct (ahead [k] (rest s)) eqn:E; cbn [app].
  - apply e_match_yes; auto. intros s1 t [T C] K X1 O1. apply H; auto. rewrite T. now constructor.
  - apply e_match_no; auto. apply H; auto; [now apply ext_refl|]. constructor. now apply ahead_no.
Qed.
Lemma e_check : forall b st k A (f : bool -> P A) s, okay b s -> k <> Eof ->
  Err b st (f (ahead [k] (rest s))) s -> Err b st (pbind (check toks k) f) s.
Proof.
  intros b st k A f s O N H. unfold check. apply e_get. now rewrite (check_ahead b k s O N).
Qed.
Lemma error_peek : forall b A msg s t i, okay b s -> rest s = t :: i ->
  @error_from_peek toks oc A msg s = PErr (error_at t msg) s.
Proof.
  intros b A msg s t i O E. unfold error_from_peek, peek_source_loc, pbind, gets.
  now rewrite rest_nth, E.
Qed.
Lemma e_peek : forall b st ks A msg s, okay b s -> ahead ks (rest s) = false ->
  Err b (need ks msg :: st) (@error_from_peek toks oc A msg) s.
Proof.
  intros b st ks A msg s O H c s' E. destruct (valid_rest toks s (proj1 O)) as (t & i & R).
  rewrite (error_peek b A msg s t i O R) in E. injection E as <- <-. exists false.
  rewrite R in *. split; [now apply rj_missing|lia].
Qed.
Lemma e_need : forall b st ks A msg (f : unit -> P A) s, okay b s -> ~ In Eof ks ->
  (forall s1 t, took t s s1 -> In (t_type t) ks -> ext b s s1 -> okay b s1 -> Err b st (f tt) s1) ->
  Err b (need ks msg :: st) (pbind (consume_any_of toks oc ks msg) f) s.
Proof.
  intros b st ks A msg f s O N H. unfold consume_any_of. apply e_assoc.
  destruct (ahead ks (rest s)) eqn:E.
  - intros c s' M. destruct (matches_yes b ks s O N E) as (t & s1 & M1 & T & I & X).
    unfold pbind in M. rewrite M1 in M. cbn in M.
    destruct (H s1 t T I X (ext_okay _ _ _ _ X) c s' M) as (lk & RJ & L).
    exists lk. destruct T as [T C]. rewrite T in *. split; [now apply rj_need|].
    destruct X as (_ & _ & _ & <-). auto.
  - apply e_matches_no; auto. destruct (valid_rest toks s (proj1 O)) as (t & i & R).
    eapply e_ext; [|apply (e_peek b st ks A msg); auto]. unfold pbind at 1.
    now rewrite !(error_peek b _ msg s t i O R).
Qed.
Lemma e_consume : forall b st k A msg (f : unit -> P A) s, okay b s -> k <> Eof ->
  (forall s1 t, took t s s1 -> t_type t = k -> ext b s s1 -> okay b s1 -> Err b st (f tt) s1) ->
  Err b (need [k] msg :: st) (pbind (consume toks oc k msg) f) s.
Proof.
  intros b st k A msg f s O N H. apply e_need; auto; [cbn; intuition|].
  intros s1 t T [K|[]] X O1. eauto.
Qed.
Lemma e_name : forall b st A msg (f : string * source_loc -> P A) s, okay b s ->
  (forall s1 t, took t s s1 -> t_type t = Identifier -> ext b s s1 -> okay b s1 ->
    Err b st (f (t_lexeme t, tloc t)) s1) ->
  Err b (need [Identifier] msg :: st) (pbind (consume_identifier toks oc msg) f) s.
Proof.
  intros b st A msg f s O H. destruct (valid_rest toks s (proj1 O)) as (t & i & R).
  unfold consume_identifier. apply e_assoc, e_get. rewrite rest_nth, R. cbn [hd_error].
  destruct (tt_eqb (t_type t) Identifier) eqn:E.
  - apply tt_eqb_iff in E. apply e_assoc.
    destruct (advance_took toks OK s t i (proj1 O) R ltac:(congruence)) as (V & T & L).
    assert (X := ext_took toks b s _ t O V L T).
    intros c s' M. destruct (H _ t T E X (ext_okay _ _ _ _ X) c s' M) as (lk & RJ & LL).
    exists lk. destruct T as [T C]. rewrite T, <- L. split; auto. apply rj_need; auto.
    rewrite ahead_iff. now left.
  - eapply e_ext; [|apply (e_peek b st [Identifier] A msg); auto].
    + unfold pbind at 1. now rewrite !(error_peek b _ msg s t i O R).
    + rewrite R. cbn. now rewrite E.
Qed.
Lemma e_wrong : forall b st A msg s s1 t, took t s s1 -> ext b s s1 ->
  Err b (Reject (error_at t msg) :: st) (@error_from_last toks oc A msg) s1.
Proof.
  intros b st A msg s s1 t [R C] X c s' E.
  assert (N : nth_error toks (cur s) = Some t).
  { assert (Z := rest_nth toks s). unfold peek in Z. now rewrite Z, R. }
  unfold error_from_last, previous_source_loc, previous, pbind, pret in E.
  rewrite C, N, C, N in E. injection E as <- <-. exists false. split; [constructor|lia].
Qed.
Lemma e_fail : forall b st A c s, Err b (Reject c :: st) (@pfail A c) s.
Proof. intros b st A c s c' s' E. injection E as <- <-. exists false. split; [constructor|lia]. Qed.

(** ** Parser functions *)
Section Level.
Variable er : P expr.
Variable sr dr : P stmt.
Variable n : nat.
Notation room := (room toks).
Hypothesis HE : forall b s, okay b s -> room n s ->
  run b er s (fun e s' => D b Expression s (VE e) s' /\ moved toks s s').
Hypothesis HS : forall b s, okay b s -> room n s ->
  run b sr s (fun st s' => D b Statement s (VS st) s' /\ cur s < cur s').
Hypothesis HD : forall b s, okay b s -> room n s ->
  run b dr s (fun st s' => D b Declaration s (VS st) s' /\ cur s < cur s').
Hypothesis EE : forall b s, okay b s -> room n s -> Err b (steps_of b Expression) er s.
Hypothesis ES : forall b s, okay b s -> room n s -> Err b (steps_of b Statement) sr s.
Hypothesis ED : forall b s, okay b s -> room n s -> Err b (steps_of b Declaration) dr s.

Ltac cx := repeat match goal with X : ParseRun.ext _ _ _ _ |- _ => destruct X as (_ & _ & ? & ?) end.
Ltac rm := unfold ParseSound.room, ParseRun.took in *; cx; intuition lia.
Ltac noeof := cbn; intuition discriminate.

(** Blocks *)
Lemma e_end : forall b st k msg A (a : A) s, okay b s -> k = Outdent \/ k = RightBrace ->
  ahead [k] (rest s) = true \/ ahead [Eof] (rest s) = true ->
  Err b ((if ahead [k] (rest s) then nil
          else if ahead [Eof] (rest s) then [need nil (closing k msg)] else st) ++ nil)
    (pdo consume_end_block toks oc k msg ;; pret a) s.
Proof.
  intros b st k msg A a s O K H. apply e_then; [|intros [] s1 c s'; discriminate].
  unfold consume_end_block. destruct (ahead [k] (rest s)) eqn:E.
  - destruct (matches_yes b [k] s O ltac:(destruct K; subst; noeof) E) as (t & s1 & M & _).
    intros c s' X. unfold pbind in X. rewrite M in X. discriminate.
  - destruct H as [H|H]; [discriminate|]. rewrite H. cbn [app].
    apply e_matches_no; auto. destruct K; subst; apply e_peek; auto;
      destruct (rest s); reflexivity.
Qed.
Lemma block_loop_err : forall b k fuel acc s, okay b s -> k = Outdent \/ k = RightBrace ->
  room n s -> Err b (steps_of b (Statements k))
    (plet l <- block_loop toks dr fuel k acc ;;
     pdo consume_end_block toks oc k " after block." ;; pret l) s.
Proof.
  intros b k fuel. induction fuel as [|fuel IH]; intros acc s O K R; cbn [block_loop steps_of];
    apply e_look, e_assoc, e_get;
    rewrite (check_ahead b) by (auto; destruct K; subst; discriminate);
    rewrite (end_ahead b) by auto;
    destruct (ahead [k] (rest s)) eqn:E1; cbn [negb andb].
  - apply e_ret_bind. assert (X := e_end b nil k " after block." _ acc s O K).
    rewrite E1 in X. apply X. auto.
  - destruct (ahead [Eof] (rest s)) eqn:E2; cbn [negb]; [|intros c s' M; discriminate].
    apply e_ret_bind. assert (X := e_end b nil k " after block." _ acc s O K).
    rewrite E1, E2 in X. apply X. auto.
  - apply e_ret_bind. assert (X := e_end b nil k " after block." _ acc s O K).
    rewrite E1 in X. apply X. auto.
  - destruct (ahead [Eof] (rest s)) eqn:E2; cbn [negb].
    + apply e_ret_bind. assert (X := e_end b nil k " after block." _ acc s O K).
      rewrite E1, E2 in X. apply X. auto.
    + apply e_assoc. cbn [app]. eapply e_sub; [apply HD; auto|apply ED; auto|].
      intros d s1 [H1 C1] X1 O1. split; [exists (VS d); exact H1|]. apply e_last.
      apply IH; auto. rm.
Qed.
Lemma finish_block_err : forall b k s, okay b s -> k = Outdent \/ k = RightBrace -> room n s ->
  Err b (steps_of b (Statements k)) (finish_block toks oc dr k) s.
Proof. intros. now apply block_loop_err. Qed.
(** The opening of a block; [lp]: of a loop body, with the count raised. *)
Lemma begin_err : forall b (body : token_type -> step) msg A (f : token_type -> P A) s,
  okay b s ->
  (forall k s1, k = Outdent \/ k = RightBrace -> cur s < cur s1 -> ext b s s1 -> okay b s1 ->
    Err b [body k] (f k) s1) ->
  Err b [opening false msg body] (pbind (consume_begin_block toks oc msg) f) s.
Proof.
  intros b body msg A f s O H. apply e_look. unfold consume_begin_block. apply e_assoc.
  destruct (ahead [Terminator] (rest s)) eqn:E1.
  - apply e_matches_yes; auto; [noeof| |].
    + rewrite ahead_iff in *. destruct (rest s); cbn in *; intuition.
    + intros s1 t T I X O1. assert (K : t_type t = Terminator).
      { rewrite (ahead_took _ _ _ _ T), tt_mem_iff in E1. cbn in E1. intuition. }
      rewrite K. apply e_assoc. apply e_consume; auto; [discriminate|].
      intros s2 u T2 K2 X2 O2. apply e_ret_bind. apply H; auto; [rm|].
      eapply ext_trans; eauto.
  - destruct (ahead [LeftBrace] (rest s)) eqn:E2.
    + apply e_matches_yes; auto; [noeof| |].
      * rewrite ahead_iff in *. destruct (rest s); cbn in *; intuition.
      * intros s1 t T I X O1. assert (K : t_type t = LeftBrace).
        { rewrite (ahead_took _ _ _ _ T), tt_mem_iff in E2. cbn in E2. intuition. }
        rewrite K. apply e_ret_bind. apply H; auto. rm.
    + assert (NO : ahead [Terminator; LeftBrace] (rest s) = false).
      { rewrite ahead_no in *. destruct (rest s); cbn in *; intuition. }
      apply e_matches_no; auto. destruct (valid_rest toks s (proj1 O)) as (t & i & R).
      eapply e_ext; [|apply (e_peek b nil nil A msg); auto; destruct (rest s); reflexivity].
      unfold pbind at 1. now rewrite !(error_peek b _ msg s t i O R).
Qed.

(** Functions *)
Lemma param_loop_err : forall b fuel acc s, okay b s -> 
  Err b (steps_of b (ParametersAfter (List.length acc))) (param_loop toks oc fuel acc) s.
Proof.
  intros b fuel. induction fuel as [|fuel IH]; intros acc s O; [apply e_fuel|].
  cbn [param_loop steps_of]. apply e_look. destruct (ahead [Identifier] (rest s)) eqn:E.
  - destruct (valid_rest toks s (proj1 O)) as (t & i & R).
    assert (K : t_type t = Identifier).
    { rewrite R, ahead_iff, starts_one in E. auto. }
    unfold consume_identifier. apply e_assoc, e_get. rewrite rest_nth, R. cbn [hd_error].
    rewrite K. change (tt_eqb Identifier Identifier) with true. cbn match. apply e_assoc.
    change 255 with max_parameters. destruct (max_parameters <=? List.length acc) eqn:M.
    + cbn [app]. unfold wrong. apply e_look. rewrite R. cbn [app].
      eapply e_advance; eauto; [congruence|]. intros s1 T X O1. apply e_ret_bind. apply e_fail.
    + cbn [app]. eapply e_advance; eauto; [congruence|]. intros s1 T X O1. apply e_ret_bind.
      cbn zeta. apply e_look. destruct (ahead [Comma] (rest s1)) eqn:C; cbn [app].
      * apply e_match_yes; auto; [discriminate|]. intros s2 u T2 K2 X2 O2. apply e_last.
        cbn [inside]. replace (S (List.length acc)) with (List.length (acc ++ [mkParam (t_lexeme t) (tloc t)]))
          by (rewrite app_length; cbn; lia). now apply IH.
      * apply e_match_no; auto; [discriminate|]. apply e_ret.
  - apply e_name; auto. intros s1 t T K _ _. exfalso. rewrite (ahead_took _ _ _ _ T) in E.
    rewrite K in E. discriminate.
Qed.
Lemma function_err : forall b l s, okay b s -> room (S n) s ->
  Err b (steps_of b FunctionBody) (function_definition toks oc dr l) s.
Proof.
  intros b l s O R. unfold function_definition. cbn [steps_of]. apply e_need; auto; [noeof|].
  intros s1 t T I X O1. apply e_check; auto; [discriminate|]. apply e_look.
  assert (TAIL : forall ps s2, ext b s1 s2 -> okay b s2 ->
    Err b [need [RightParen] "Expect ')' after parameters.";
           block "Expect '{' or indent before function body."]
      (pdo consume toks oc RightParen "Expect ')' after parameters." ;;
       plet end_block <- consume_begin_block toks oc "Expect '{' or indent before function body." ;;
       plet body <- finish_block toks oc dr end_block ;;
       pret (FunDef ps body PlainFunction l)) s2).
  { intros ps s2 X2 O2. apply e_consume; auto; [discriminate|]. intros s3 u T3 K3 X3 O3.
    apply begin_err; auto. intros k s4 K C4 X4 O4. apply e_last. cbn [inside].
    apply e_then; [|intros ? ? ? ?; discriminate]. apply finish_block_err; auto. rm. }
  destruct (ahead [RightParen] (rest s1)) eqn:E; cbn [negb app].
  - apply e_ret_bind. apply TAIL; auto. now apply ext_refl.
  - eapply e_sub; [apply param_loop_sound with (trailing := trailing); auto;
      [unfold ParseSound.room, loop_fuel; destruct X as ((V & _) & _); lia|cbn; lia]
      |apply param_loop_err; auto|].
    intros ps s2 (ps' & -> & L & H2 & C2) X2 O2. split; [|apply TAIL; auto].
    exists ps'. split; auto.
Qed.

(** Maps, arrays, arguments *)
Lemma key_is : forall t k, key_of t k -> key t = k.
Proof. intros t k [[T ->]|[T V]]; unfold key; rewrite T; [auto|now rewrite V]. Qed.
Lemma existsb_in : forall k l, existsb (String.eqb k) l = true <-> In k l.
Proof.
  intros k l. rewrite existsb_exists. split.
  - intros (x & I & E). apply String.eqb_eq in E. now subst.
  - intros I. exists k. split; auto. apply String.eqb_refl.
Qed.
Lemma literal_map_err : forall b fuel m seen s, okay b s -> room (S n) s ->
  (forall k, In k seen <-> In k (map fst m)) ->
  Err b (steps_of b (EntriesAfter seen)) (literal_map_loop toks oc er fuel m) s.
Proof.
  intros b fuel. induction fuel as [|fuel IH]; intros m seen s O R SN; cbn [literal_map_loop steps_of];
    apply e_look, e_get; rewrite (entry_ahead_eq b) by auto; destruct (entry_ahead (rest s)) eqn:EA;
    cbn [negb]; try apply e_ret; try apply e_fuel.
  apply e_get. rewrite rest_nth. apply entry_ahead_iff in EA.
  destruct EA as (t & c & r & E & I & K). rewrite E. cbn [hd_error].
  destruct (key_here toks OK s t (c :: r) (proj1 O) E I) as (k & HK).
  rewrite (key_is _ _ HK).
  eapply e_pass with (a := k) (s1 := s); auto.
  { destruct HK as [[-> ->]|[-> ->]]; reflexivity. }
  rewrite <- app_assoc. eapply e_advance; eauto.
  { destruct I as [I|[I|[]]]; rewrite <- I; discriminate. }
  intros s1 T1 X1 O1. assert (E1 : rest s1 = c :: r) by (destruct T1 as [T1 _]; rewrite E in T1; now injection T1).
  assert (M1 : exists s2, consume toks oc Colon "Expect ':' after map key" s1 = POk tt s2 /\
    took c s1 s2 /\ ext b s1 s2).
  { destruct (matches_yes b [Colon] s1 O1 ltac:(noeof)) as (u & s2 & M & T & IU & X).
    - rewrite E1, ahead_iff. now left.
    - exists s2. assert (u = c) by (destruct T as [T _]; rewrite E1 in T; now injection T). subst u.
      split; auto. unfold consume, consume_any_of, pbind. now rewrite M. }
  destruct M1 as (s2 & M1 & T2 & X2). assert (O2 := ext_okay _ _ _ _ X2).
  assert (SK : forall st A (f : unit -> P A), Err b st (f tt) s2 -> Err b (Skip :: st)
    (pbind (consume toks oc Colon "Expect ':' after map key") f) s1).
  { intros st A f H c0 s' M. unfold pbind in M. rewrite M1 in M.
    eapply skip_err; [exact T2|apply X2|exact H|exact M]. }
  apply SK. clear SK M1. cbn [app]. eapply e_sub; [apply HE; auto; rm|apply EE; auto; rm|].
  intros v s3 [H3 M3] X3 O3. split; [eexists; exact H3|].
  destruct (map_insert m k v) as [m' old] eqn:MI. apply map_insert_spec in MI.
  destruct old.
  - replace (existsb (String.eqb k) seen) with true; [apply e_fail|].
    symmetry. apply existsb_in. now apply SN.
  - destruct MI as [NI ->]. replace (existsb (String.eqb k) seen) with false.
    2:{ symmetry. destruct (existsb (String.eqb k) seen) eqn:Z; auto. apply existsb_in, SN in Z. contradiction. }
    cbn [app]. apply e_look, e_get. rewrite (separator_ahead_eq b) by auto.
    destruct (separator_ahead (rest s3)) eqn:SP; [|apply e_ret].
    apply separator_ahead_iff in SP. destruct SP as (r3 & SP).
    assert (Y : exists w, rest s3 = w :: r3 /\ t_type w <> Eof).
    { destruct SP as [(w & W & KW)|[(w & W & KW) _]]; exists w; rewrite KW; split; auto; discriminate. }
    destruct Y as (w & W & KW). cbn [app]. eapply e_advance; eauto. intros s4 T4 X4 O4.
    apply e_last. apply IH; auto; [rm|]. intros k0. rewrite map_app, in_app_iff. cbn [In map fst].
    rewrite SN. tauto.
Qed.
Lemma array_loop_err : forall b fuel acc s, okay b s -> room n s ->
  Err b (steps_of b Elements) (array_loop toks er fuel acc) s.
Proof.
  intros b fuel. induction fuel as [|fuel IH]; intros acc s O R; [apply e_fuel|].
  cbn [array_loop steps_of]. eapply e_sub; [apply HE; auto|apply EE; auto|].
  intros e s1 [H1 _] X1 O1. split; [eexists; exact H1|]. cbn zeta. apply e_look.
  destruct (ahead [Comma] (rest s1)) eqn:E; cbn [app].
  - apply e_match_yes; auto; [discriminate|]. intros s2 t T K X2 O2. cbn [negb].
    apply e_look, e_check; auto; [discriminate|]. destruct (ahead [RightBracket] (rest s2)); [apply e_ret|].
    apply e_last, IH; auto. rm.
  - apply e_match_no; auto; [discriminate|]. apply e_ret.
Qed.
Lemma args_loop_err : forall b fuel acc s, okay b s -> room n s ->
  Err b (steps_of b (ArgumentsAfter (List.length acc))) (args_loop toks oc er fuel acc) s.
Proof.
  intros b fuel. induction fuel as [|fuel IH]; intros acc s O R; [apply e_fuel|].
  cbn [args_loop steps_of]. change 255 with max_parameters.
  destruct (max_parameters <=? List.length acc); [apply e_peek; auto; destruct (rest s); reflexivity|].
  eapply e_sub; [apply HE; auto|apply EE; auto|].
  intros e s1 [H1 _] X1 O1. split; [eexists; exact H1|]. cbn zeta. apply e_look.
  destruct (ahead [Comma] (rest s1)) eqn:E; cbn [app].
  - apply e_match_yes; auto; [discriminate|]. intros s2 t T K X2 O2. apply e_last. cbn [inside].
    replace (S (List.length acc)) with (List.length (acc ++ [e])) by (rewrite app_length; cbn; lia).
    apply IH; auto. rm.
  - apply e_match_no; auto; [discriminate|]. apply e_ret.
Qed.

(** Primary expressions *)
Lemma end_before : forall t eof body, before_end (body ++ [t; eof]) = Some t.
Proof.
  intros t eof body. induction body as [|x body IH]; auto. cbn [app before_end].
  destruct (body ++ [t; eof]) as [|y [|z l]] eqn:E.
  - destruct body; discriminate.
  - destruct body as [|? [|? ?]]; discriminate.
  - exact IH.
Qed.
Lemma end_token : forall s t, rest s = [t] -> 0 < cur s -> nth_error toks (cur s - 1) = Some ending.
Proof.
  intros s t R C. assert (F := firstn_skipn (cur s) toks). unfold ParseRun.rest in R. rewrite R in F.
  assert (L : length (firstn (cur s) toks) = cur s).
  { apply firstn_length_le. assert (Z := f_equal (@length token) R). rewrite skipn_length in Z. cbn in Z. lia. }
  destruct (exists_last (l := firstn (cur s) toks)) as (body & u & E).
  { intros Z. rewrite Z in L. cbn in L. lia. }
  assert (U : u = ending).
  { rewrite E, <- app_assoc in F. assert (X := ENDING). rewrite <- F in X. cbn [app] in X.
    rewrite end_before in X. now injection X. }
  subst u. rewrite <- F, E, <- app_assoc. rewrite E, app_length in L. cbn in L.
  rewrite nth_error_app2 by lia. replace (cur s - 1 - length body) with 0 by lia. reflexivity.
Qed.
Lemma e_unexpected : forall b A s, okay b s ->
  Err b (if ahead [Eof] (rest s) then [Reject (error_at ending "Expect expression.")]
         else [wrong "Expect expression."])
    (pdo advance toks ;; @error_from_last toks oc A "Expect expression.") s.
Proof.
  intros b A s O. destruct (valid_rest toks s (proj1 O)) as (t & i & R).
  destruct (ahead [Eof] (rest s)) eqn:E.
  - rewrite ahead_iff, R, starts_one in E.
    assert (I : i = nil) by now apply (eof_last toks OK s t i R). subst i.
    assert (Z : is_at_end toks s = true).
    { rewrite (end_ahead b) by auto. rewrite ahead_iff, R. now left. }
    intros c s' M. unfold pbind at 1, advance in M. rewrite advance_at_end in M by auto.
    assert (C : 0 < cur s).
    { destruct O as [[_ V] _]. destruct (cur s) eqn:Z0; [|lia]. exfalso. apply V; auto. rewrite R. now left. }
    assert (N := end_token s t R C).
    unfold error_from_last, previous_source_loc, previous, pbind, pret in M.
    destruct (cur s) as [|k] eqn:CS; [lia|]. replace (S k - 1) with k in N by lia.
    rewrite N in M. rewrite CS, N in M. injection M as <- <-. exists false. split; [constructor|lia].
  - unfold wrong. apply e_look. rewrite R. cbn [app]. eapply e_advance; eauto.
    { intros K. rewrite ahead_no in E. apply E. rewrite R. now left. }
    intros s1 T X O1. eapply e_wrong; eauto.
Qed.
Ltac known := repeat match goal with |- context [tt_mem ?k ?ks] =>
    let v := eval vm_compute in (tt_mem k ks) in change (tt_mem k ks) with v end;
  cbn match; cbn [andb negb].
Ltac adv E := eapply e_advance; [eassumption|exact E|congruence|].
Lemma primary_err : forall b s, okay b s -> room (S n) s ->
  Err b (steps_of b Primary) (primary toks oc er dr) s.
Proof.
  intros b s O R. unfold primary. cbn [steps_of]. apply e_look, e_get. rewrite rest_nth.
  destruct (valid_rest toks s (proj1 O)) as (t & i & E).
  replace (hd_error (rest s)) with (Some t) by now rewrite E.
  assert (CN : check_next_st toks Colon s = ahead [Colon] (tl (rest s))) by now apply check_next_ahead with b.
  assert (UN := e_unexpected b expr s O). rewrite app_nil_r.
  assert (map_case : forall A (f : list (string * expr) -> P A), (forall a s1 c s', f a s1 <> PErr c s') ->
    Err b [Last (EntriesAfter nil)] (plet m <- literal_map toks oc er ;; f m) s).
  { intros A f N. apply e_then; auto. apply e_last. unfold literal_map. apply literal_map_err; auto.
    cbn. tauto. }
  unfold entry_ahead. revert UN.
  assert (HA : forall ks, ahead ks (rest s) = tt_mem (t_type t) ks) by (intros; now rewrite E).
  rewrite !HA. destruct (t_type t) eqn:K; known; intros UN; try exact UN; clear UN.
  - (* LeftParen *) adv E. intros s1 T1 X1 O1. eapply e_sub; [apply HE; auto; rm|apply EE; auto; rm|].
    intros e s2 [H2 _] X2 O2. split; [eexists; exact H2|]. apply e_consume; auto; [discriminate|].
    intros. apply e_ret.
  - (* LeftParenAbutting *) adv E. intros s1 T1 X1 O1. eapply e_sub; [apply HE; auto; rm|apply EE; auto; rm|].
    intros e s2 [H2 _] X2 O2. split; [eexists; exact H2|]. apply e_consume; auto; [discriminate|].
    intros. apply e_ret.
  - (* LeftBrace *) adv E. intros s1 T1 X1 O1.
    eapply e_sub; [apply literal_map_sound with (trailing := trailing) (n := n); auto;
        unfold ParseSound.room, loop_fuel in *; cx; lia
      |apply literal_map_err; auto; [rm|cbn; tauto]|].
    intros m s2 (m' & -> & H2 & ND & M2) X2 O2. split.
    { exists m'. split; auto. cbn [app] in ND. split; [apply ND; constructor|]. cbn. auto. }
    apply e_consume; auto; [discriminate|]. intros. apply e_ret.
  - (* LeftBracket *) adv E. intros s1 T1 X1 O1. apply e_check; auto; [discriminate|].
    apply e_look. destruct (ahead [RightBracket] (rest s1)) eqn:A; cbn [negb app].
    + apply e_ret_bind. apply e_consume; auto; [discriminate|]. intros. apply e_ret.
    + eapply e_sub; [apply array_loop_sound with (trailing := trailing) (n := n); auto;
        [unfold ParseSound.room, loop_fuel in *; lia|rm]|apply array_loop_err; auto; rm|].
      intros es s2 (es' & -> & H2) X2 O2. split; [eexists; exact H2|].
      apply e_consume; auto; [discriminate|]. intros. apply e_ret.
  - (* Identifier *) apply e_get. rewrite CN. destruct (ahead [Colon] (tl (rest s))).
    + apply map_case. intros ? ? ? ?; discriminate.
    + intros c1 s1' M1. discriminate.
  - (* TString *) apply e_get. rewrite CN. destruct (ahead [Colon] (tl (rest s))).
    + apply map_case. intros ? ? ? ?; discriminate.
    + intros c s' M. destruct (t_string t); discriminate.
  - (* Number *) intros c s' M. destruct (t_float t); discriminate.
  - (* TFalse *) intros c1 s1' M1. discriminate.
  - (* Fun *) adv E. intros s1 T1 X1 O1. apply e_look. destruct (ahead [Identifier] (rest s1)) eqn:A; cbn [app].
    + destruct (valid_rest toks s1 (proj1 O1)) as (u & j & R1). unfold wrong. apply e_look.
      rewrite R1. cbn [app]. apply e_match_yes; auto; [discriminate|].
      intros s2 u' T2 K2 X2 O2. assert (u' = u) by (destruct T2 as [T2 _]; rewrite R1 in T2; now injection T2).
      subst u'. eapply e_wrong; eauto.
    + apply e_match_no; auto; [discriminate|]. apply e_last. cbn [inside].
      apply e_then; [|intros ? ? ? ?; discriminate]. apply function_err; auto. rm.
  - (* Nil *) intros c1 s1' M1. discriminate.
  - (* Super *) adv E. intros s1 T1 X1 O1. apply e_consume; auto; [discriminate|].
    intros s2 u T2 K2 X2 O2. apply e_name; auto. intros. apply e_ret.
  - (* This *) apply e_get. rewrite CN. destruct (ahead [Colon] (tl (rest s))) eqn:A.
    + apply e_then; [|intros ? ? ? ?; discriminate]. unfold literal_map, loop_fuel.
      cbn [literal_map_loop]. apply e_get. rewrite (entry_ahead_eq b) by auto.
      unfold entry_ahead. rewrite HA. known. apply e_ret.
    + intros c1 s1' M1. discriminate.
  - (* TTrue *) intros c1 s1' M1. discriminate.
Qed.

(** Calls and operators *)
Lemma call_loop_err : forall b fuel e s, okay b s ->
  room n s \/ starts [This] (rest s) ->
  Err b (steps_of b CallSuffix) (call_loop toks oc er fuel e) s.
Proof.
  intros b fuel. induction fuel as [|fuel IH]; intros e s O R; [apply e_fuel|].
  cbn [call_loop steps_of]. apply e_look. rewrite app_nil_r.
  destruct (valid_rest toks s (proj1 O)) as (t & i & E).
  assert (YES : forall k, In k [Dot; LeftParenAbutting; LeftBracket] -> ahead [k] (rest s) = true ->
    room n s /\ t_type t = k /\ ahead [Dot; LeftParenAbutting; LeftBracket] (rest s) = true).
  { intros k I A. rewrite ahead_iff, E, starts_one in A. split.
    - destruct R as [R|R]; auto. exfalso. rewrite E, starts_one in R. rewrite <- A, R in I.
      cbn in I. intuition discriminate.
    - split; auto. rewrite ahead_iff, E. cbn [starts]. now rewrite A. }
  assert (GO : forall k st A (f : option (token_type * source_loc) -> P A),
    In k [Dot; LeftParenAbutting; LeftBracket] -> ahead [k] (rest s) = true ->
    (room n s -> forall s1, took t s s1 -> ext b s s1 -> okay b s1 -> Err b st (f (Some (k, tloc t))) s1) ->
    Err b (Skip :: st) (pbind (matches toks [Dot; LeftParenAbutting; LeftBracket]) f) s).
  { intros k st A f I A1 H. destruct (YES k I A1) as (RN & K & A2).
    apply e_matches_yes; auto; [noeof|]. intros s1 u T IU X O1.
    assert (u = t) by (destruct T as [T _]; rewrite E in T; now injection T). subst u.
    rewrite K. apply H; auto. }
  destruct (ahead [Dot] (rest s)) eqn:A1.
  { eapply GO; [|exact A1|]; [cbn; auto|]. intros RN s1 T X O1. apply e_name; auto.
    intros s2 u T2 K2 X2 O2. apply e_last, IH; auto. left. rm. }
  destruct (ahead [LeftParenAbutting] (rest s)) eqn:A2.
  { eapply GO; [|exact A2|]; [cbn; auto|]. intros RN s1 T X O1. unfold finish_call.
    apply e_assoc. apply e_check; auto; [discriminate|]. apply e_assoc, e_look.
    destruct (ahead [RightParen] (rest s1)); cbn [negb app].
    - apply e_ret_bind, e_assoc. apply e_consume; auto; [discriminate|].
      intros s2 u T2 K2 X2 O2. apply e_ret_bind, e_last, IH; auto. left. rm.
    - eapply e_sub; [apply args_loop_sound with (trailing := trailing) (n := n); auto;
        [unfold ParseSound.room, loop_fuel in *; lia|rm]|apply args_loop_err; auto; rm|].
      intros es s2 (es' & -> & L & H2 & _) X2 O2. split; [exists es'; auto|].
      apply e_assoc. apply e_consume; auto; [discriminate|].
      intros s3 u T3 K3 X3 O3. apply e_ret_bind, e_last, IH; auto. left. rm. }
  destruct (ahead [LeftBracket] (rest s)) eqn:A3.
  { eapply GO; [|exact A3|]; [cbn; auto|]. intros RN s1 T X O1. unfold finish_get_index.
    apply e_assoc. eapply e_sub; [apply HE; auto; rm|apply EE; auto; rm|].
    intros e1 s2 [H2 _] X2 O2. split; [eexists; exact H2|].
    apply e_assoc. apply e_consume; auto; [discriminate|].
    intros s3 u T3 K3 X3 O3. apply e_ret_bind, e_last, IH; auto. left. rm. }
  apply e_matches_no; auto.
  { rewrite ahead_no in *. rewrite E in *. cbn in *. intuition. }
  apply e_get. rewrite (check_any_ahead b) by (auto; noeof).
  change CALL_PRIMARY_TOKENS with argument_start.
  destruct (ahead argument_start (rest s)) eqn:A4; [|apply e_ret].
  assert (NT : t_type t <> This).
  { intros K. rewrite ahead_iff, E in A4. cbn in A4. rewrite K in A4. intuition discriminate. }
  assert (RN : room n s).
  { destruct R as [R|R]; auto. exfalso. rewrite E, starts_one in R. contradiction. }
  eapply e_pass with (a := tloc t) (s1 := s); auto.
  { unfold peek_source_loc, pbind, gets. now rewrite rest_nth, E. }
  unfold finish_call_without_parens. apply e_assoc.
  eapply e_sub; [apply args_loop_sound with (trailing := trailing) (n := n); auto;
    unfold ParseSound.room, loop_fuel in *; lia|apply args_loop_err; auto|].
  intros es s2 (es' & -> & L & H2 & M2) X2 O2. split; [exists es'; auto|].
  apply e_ret_bind, e_last, IH; auto. left. rm.
Qed.
Lemma call_err : forall b s, okay b s -> room (S n) s ->
  Err b (steps_of b Call) (call toks oc er dr) s.
Proof.
  intros b s O R. unfold call. cbn [steps_of].
  eapply e_sub; [apply primary_sound with (trailing := trailing) (n := n); auto|apply primary_err; auto|].
  intros e s1 [H1 M1] X1 O1. split; [eexists; exact H1|]. apply e_last, call_loop_err; auto.
  destruct M1 as [M1|[-> M1]]; [left; rm|right; auto].
Qed.
Lemma unary_err : forall b fuel s, okay b s -> room (S n) s ->
  Err b (steps_of b Unary) (unary_fuel toks oc er dr fuel) s.
Proof.
  intros b fuel. induction fuel as [|fuel IH]; intros s O R; [apply e_fuel|].
  cbn [unary_fuel steps_of]. apply e_look. destruct (ahead [Bang; Minus] (rest s)) eqn:A; cbn [app].
  - apply e_matches_yes; auto; [noeof|]. intros s1 t T I X O1. apply e_last.
    apply e_then; [apply IH; auto; rm|]. intros a s2 c s'. destruct (t_type t); discriminate.
  - apply e_matches_no; auto. apply e_last, call_err; auto.
Qed.
Lemma tail_err : forall lv ks next loop, tail_shape toks lv ks next loop ->
  (forall b s, okay b s -> room (S n) s ->
    run b next s (fun e s' => D b (Binary (S lv)) s (VE e) s' /\ moved toks s s')) ->
  (forall b s, okay b s -> room (S n) s -> Err b (steps_of b (Binary (S lv))) next s) ->
  forall b fuel e s, okay b s -> room fuel s -> room (S n) s ->
  Err b (steps_of b (OperatorTail lv)) (loop fuel e) s.
Proof.
  intros lv ks next loop [SR SO] HN EN b. induction fuel as [|f IH]; intros e s O F R.
  { exfalso. destruct O as [[V _] _]. unfold ParseSound.room in F. lia. }
  eapply e_ext; [apply SR|]. unfold tail_body. cbn [steps_of]. apply e_look. rewrite app_nil_r.
  assert (NE : ~ In Eof ks). { rewrite SO. destruct lv as [|[|[|[|[|[|lv]]]]]]; cbn; auto. }
  destruct (valid_rest toks s (proj1 O)) as (t & i & E). rewrite E.
  destruct (operator lv (t_type t)) as [g|] eqn:G.
  - apply e_matches_yes; auto.
    { rewrite ahead_iff, E. cbn. apply SO. congruence. }
    intros s1 u T I X O1.
    assert (u = t) by (destruct T as [T _]; rewrite E in T; now injection T). subst u.
    eapply e_sub; [apply HN; auto; rm|apply EN; auto; rm|].
    intros e2 s2 [H2 M2] X2 O2. split; [eexists; exact H2|]. rewrite G. apply e_last, IH; auto; rm.
  - apply e_matches_no; auto; [|apply e_ret]. rewrite ahead_no, E. cbn. rewrite SO. congruence.
Qed.
Lemma bin_run : forall k lv, lv + k = top_level -> forall b s, okay b s -> room (S n) s ->
  run b (bin toks oc er dr lv) s (fun e s' => D b (Binary lv) s (VE e) s' /\ moved toks s s').
Proof.
  induction k as [|k IH]; intros lv L b s O R.
  - assert (lv = top_level) by lia. subst lv. cbn [bin top_level].
    eapply run_conseq; [apply unary_sound with (trailing := trailing) (n := n); auto;
      unfold ParseSound.room, loop_fuel; lia|].
    intros e s1 X [H1 M1]. split; auto. now apply d_binary_top.
  - rewrite bin_eq by lia. destruct (bin_shape toks oc er dr lv) as (ks & SH); [lia|].
    eapply binary_sound; eauto; [lia|]. intros b1 s1 O1 R1. apply IH; auto. lia.
Qed.
Lemma bin_err : forall k lv, lv + k = top_level -> forall b s, okay b s -> room (S n) s ->
  Err b (steps_of b (Binary lv)) (bin toks oc er dr lv) s.
Proof.
  induction k as [|k IH]; intros lv L b s O R.
  - assert (lv = top_level) by lia. subst lv. cbn [bin top_level steps_of]. cbn [Nat.ltb Nat.leb].
    apply e_last, unary_err; auto.
  - rewrite bin_eq by lia. destruct (bin_shape toks oc er dr lv) as (ks & SH); [lia|].
    cbn [steps_of]. replace (lv <? top_level) with true by (symmetry; apply Nat.ltb_lt; lia).
    eapply e_sub; [apply (bin_run k (S lv)); auto; lia|apply (IH (S lv)); auto; lia|].
    intros e s1 [H1 M1] X1 O1. split; [eexists; exact H1|]. apply e_last.
    eapply tail_err; eauto.
    + intros b1 s2 O2 R2. apply (bin_run k (S lv)); auto. lia.
    + intros b1 s2 O2 R2. apply (IH (S lv)); auto. lia.
    + unfold ParseSound.room, loop_fuel. lia.
    + rm.
Qed.
Lemma target_err : forall b s, okay b s -> room (S n) s ->
  Err b (steps_of b Target) (target_fn toks oc er dr) s.
Proof.
  intros b s O R. unfold target_fn. cbn [steps_of]. apply e_look.
  destruct (ahead [Indent] (rest s)) eqn:A; cbn [app].
  - apply e_match_yes; auto; [discriminate|]. intros s1 t T K X O1.
    eapply e_sub; [apply (bin_run 6 0); auto; rm|apply (bin_err 6 0); auto; rm|].
    intros e s2 [H2 _] X2 O2. split; [eexists; exact H2|].
    apply e_maybe; auto; [discriminate|]. intros x s3 X3 O3 _.
    apply e_consume; auto; [discriminate|]. intros. apply e_ret.
  - apply e_match_no; auto; [discriminate|]. apply e_last. apply (bin_err 6 0); auto.
Qed.
Lemma target_err_then : forall b k st A (f : expr -> P A) s, okay b s -> room (S n) s ->
  (forall e s1, D b Target s (VE e) s1 -> ext b s s1 -> okay b s1 -> moved toks s s1 ->
     Err b (k e (rest s1) ++ st) (f e) s1) ->
  Err b (TargetThen k :: st) (pbind (target_fn toks oc er dr) f) s.
Proof.
  intros b k st A f s O R H c s' E. unfold pbind in E.
  assert (TS := target_sound toks trailing oc OK er dr n HE HD b s O R).
  unfold ParseRun.run in TS. fold (target_fn toks oc er dr) in TS.
  destruct (target_fn toks oc er dr s) as [e s1|c1 s1|w|] eqn:M; try discriminate.
  - destruct TS as [X [HT MV]]. destruct (H e s1 HT X (ext_okay _ _ _ _ X) MV c s' E) as (lk & RJ & L).
    exists lk. split; [eapply rj_target; eauto|]. destruct X as (_ & _ & _ & <-). exact L.
  - injection E as -> ->. destruct (target_err b s O R c s' M) as (lk & RJ & L). exists lk.
    split; auto. now apply rj_target_bad.
Qed.
Lemma expression_err : forall b s, okay b s -> room (S n) s ->
  Err b (steps_of b Expression) (expression toks oc er dr) s.
Proof.
  intros b s O R. eapply e_ext; [apply expression_eq|]. cbn [steps_of].
  apply target_err_then; auto; intros e s1 H1 X1 O1 M1. rewrite app_nil_r.
  destruct (valid_rest toks s1 (proj1 O1)) as (t & i & E). rewrite E.
  destruct (ahead [Equal] (t :: i)) eqn:A; rewrite <- E in A.
  - cbn [app]. apply e_matches_yes; auto; [noeof|]. intros s2 u T I X2 O2.
    assert (u = t) by (destruct T as [T _]; rewrite E in T; now injection T). subst u.
    assert (RN : room n s2) by rm.
    eapply e_sub; [apply HE; auto|apply EE; auto|].
    intros e2 s3 [H3 _] X3 O3. split; [eexists; exact H3|].
    destruct e; cbn [can_assign assign_target]; try apply e_ret; try apply e_fail.
    match goal with |- context [String.eqb ?x "this"] => destruct (String.eqb x "this") end;
      [apply e_fail|apply e_ret].
  - apply e_matches_no; auto. apply e_ret.
Qed.

(** Declarations *)
Lemma expression_run : forall b s, okay b s -> room (S n) s ->
  run b (expression toks oc er dr) s (fun e s' => D b Expression s (VE e) s' /\ moved toks s s').
Proof. apply expression_sound; auto. Qed.
Ltac sub_expr := eapply e_sub; [apply expression_run; auto; rm|apply expression_err; auto; rm|];
  let e := fresh "e" in let s := fresh "s" in let H := fresh "H" in let X := fresh "X" in
  let Oh := fresh "Oh" in let M := fresh "M" in
  intros e s [H M] X Oh; split; [exists (VE e); exact H|].
Lemma expression_statement_err : forall b s, okay b s -> room (S n) s ->
  Err b (steps_of b ExpressionStatement) (expression_statement toks trailing oc er dr) s.
Proof.
  intros b s O R. unfold expression_statement. cbn [steps_of]. sub_expr.
  apply e_look, e_get. rewrite (end_ahead b), (check_ahead b) by (auto; discriminate).
  destruct (trailing && ahead [Eof] (rest s0)) eqn:E; cbn [negb orb app].
  - replace (ahead [Terminator] (rest s0)) with false; [apply e_ret|].
    apply andb_true_iff in E. destruct E as [_ E]. symmetry. rewrite ahead_no. rewrite ahead_iff in E.
    destruct (rest s0); cbn in *; intuition congruence.
  - apply e_consume; auto; [discriminate|]. intros. apply e_ret.
Qed.
Lemma var_declaration_err : forall b (fi : bool) s, okay b s -> room (S n) s ->
  Err b (steps_of b (VarDeclaration fi)) (finish_var_declaration toks oc er dr fi) s.
Proof.
  intros b fi s O R. unfold finish_var_declaration. cbn [steps_of]. apply e_name; auto.
  intros s1 t T K X O1. apply e_look. destruct (ahead [Equal] (rest s1)) eqn:E; cbn [app].
  - apply e_matches_yes; auto; [noeof|]. intros s2 u T2 I2 X2 O2. apply e_assoc.
    apply e_maybe; auto; [discriminate|]. intros x s3 X3 O3 OP. apply e_look. cbn [app].
    apply e_assoc, e_get, e_assoc. sub_expr. apply e_ret_bind.
    rewrite !(check_ahead b) by (auto; discriminate).
    replace (ahead [Indent; LeftBrace] (rest s3)) with
      (ahead [Indent] (rest s3) || ahead [LeftBrace] (rest s3)).
    2:{ destruct (rest s3); cbn; auto. now rewrite !orb_false_r. }
    rewrite <- negb_orb. destruct fi; cbn [negb andb].
    + apply e_consume; auto; [discriminate|]. intros. apply e_ret.
    + destruct (ahead [Indent] (rest s3) || ahead [LeftBrace] (rest s3)); cbn [negb].
      * apply e_assoc. apply e_maybe; auto; [discriminate|]. intros. intros c s' M'. discriminate.
      * apply e_consume; auto; [discriminate|]. intros. apply e_ret.
  - apply e_matches_no; auto. apply e_ret_bind. destruct fi;
      (apply e_consume; auto; [discriminate|]; intros; apply e_ret).
Qed.
Lemma method_loop_err : forall b k fuel acc s, okay b s -> k = Outdent \/ k = RightBrace ->
  room (S n) s -> Err b (steps_of b (Methods k))
    (plet l <- method_loop toks oc dr fuel k acc ;;
     pdo consume_end_block toks oc k " after class method body." ;; pret l) s.
Proof.
  intros b k fuel. induction fuel as [|fuel IH]; intros acc s O K R; cbn [method_loop steps_of];
    apply e_look, e_assoc, e_get;
    rewrite (check_ahead b) by (auto; destruct K; subst; discriminate);
    rewrite (end_ahead b) by auto;
    assert (EN := fun st => e_end b st k " after class method body." _ acc s O K);
    destruct (ahead [k] (rest s)) eqn:E1; cbn [negb andb];
    try (apply e_ret_bind; apply (EN nil); auto; fail);
    destruct (ahead [Eof] (rest s)) eqn:E2; cbn [negb];
    try (apply e_ret_bind; apply (EN nil); auto; fail).
  - intros c1 s1' M1. discriminate.
  - cbn [app]. apply e_assoc. apply e_maybe; auto; [discriminate|]. intros x s1 X1 O1 OP.
    apply e_assoc. unfold finish_fun_declaration. apply e_assoc. apply e_name; auto.
    intros s2 t T K2 X2 O2. apply e_assoc.
    eapply e_sub; [apply function_sound with (trailing := trailing) (n := n); auto; rm
      |apply function_err; auto; rm|].
    intros f s3 [H3 C3] X3 O3. split; [exists (tloc t), (VF f); exact H3|]. apply e_ret_bind.
    apply e_last, IH; auto. rm.
Qed.
Lemma class_err : forall b s, okay b s -> room (S n) s ->
  Err b [need [Identifier] "Expect identifier after 'class'.";
         Look (fun i => if ahead [Less] i
                        then [Skip; need [Identifier] "Expect superclass name."] else nil);
         opening false "Expect '{' or indent after class name." (fun k => Last (Methods k))]
    (finish_class_declaration toks oc dr) s.
Proof.
  intros b s O R. unfold finish_class_declaration. apply e_name; auto.
  intros s1 t T K X O1. apply e_look.
  assert (TAIL : forall sup s2, ext b s1 s2 -> okay b s2 ->
    Err b [opening false "Expect '{' or indent after class name." (fun k => Last (Methods k))]
      (plet end_block <- consume_begin_block toks oc "Expect '{' or indent after class name." ;;
       plet methods <- method_loop toks oc dr (loop_fuel toks) end_block nil ;;
       pdo consume_end_block toks oc end_block " after class method body." ;;
       pret (SClass (ClassDef (t_lexeme t) sup methods (tloc t)))) s2).
  { intros sup s2 X2 O2. apply begin_err; auto. intros k s3 K3 C3 X3 O3. apply e_last. cbn [inside].
    eapply e_ext with (m' := plet l <- (plet l <- method_loop toks oc dr (loop_fuel toks) k nil ;;
       pdo consume_end_block toks oc k " after class method body." ;; pret l) ;;
       pret (SClass (ClassDef (t_lexeme t) sup l (tloc t)))).
    - unfold pbind. destruct (method_loop toks oc dr (loop_fuel toks) k [] s3); auto.
      destruct (consume_end_block toks oc k " after class method body." s0); auto.
    - apply e_then; [apply method_loop_err; auto; rm|intros ? ? ? ?; discriminate]. }
  destruct (ahead [Less] (rest s1)) eqn:A; cbn [app].
  - apply e_match_yes; auto; [discriminate|]. intros s2 u T2 K2 X2 O2. apply e_assoc. apply e_name; auto.
    intros s3 v T3 K3 X3 O3. apply e_ret_bind. apply TAIL; auto. eapply ext_trans; eauto.
  - apply e_match_no; auto; [discriminate|]. apply e_ret_bind. apply TAIL; auto. now apply ext_refl.
Qed.

(** Statements *)
Lemma block_ahead : forall b s, okay b s -> check_st toks Terminator s || check_st toks LeftBrace s =
  ahead [Terminator; LeftBrace] (rest s).
Proof.
  intros b s O. rewrite !(check_ahead b) by (auto; discriminate). destruct (rest s); cbn; auto.
  now rewrite !orb_false_r.
Qed.
Lemma opening_msg : forall b lv msg msg' body i f, ahead [Terminator; LeftBrace] i = true ->
  rejects b [opening lv msg body] i f -> rejects b [opening lv msg' body] i f.
Proof.
  intros b lv msg msg' body i f A H. inversion H; subst. constructor.
  destruct (ahead [Terminator] i) eqn:A1; auto. destruct (ahead [LeftBrace] i) eqn:A2; auto.
  exfalso. rewrite ahead_no in *. rewrite ahead_iff in A. destruct i; cbn in *; intuition.
Qed.
Lemma branch_err : forall b msg s, okay b s -> room n s ->
  Err b (steps_of b Branch) (branch_fn toks oc sr dr msg) s.
Proof.
  intros b msg s O R. unfold branch_fn. cbn [steps_of]. apply e_look, e_get.
  rewrite (block_ahead b) by auto. destruct (ahead [Terminator; LeftBrace] (rest s)) eqn:A; cbn [app].
  - assert (H : Err b [block msg] (plet end_block <- consume_begin_block toks oc msg ;;
      plet b0 <- finish_block toks oc dr end_block ;; pret (SBlock b0)) s).
    { apply begin_err; auto. intros k s1 K C1 X1 O1. apply e_last.
      apply e_then; [|intros ? ? ? ?; discriminate]. apply finish_block_err; auto. rm. }
    intros c s' M. destruct (H c s' M) as (lk & RJ & L). exists lk. split; auto.
    revert RJ. apply opening_msg; auto.
  - apply e_last. apply ES; auto.
Qed.
Lemma loop_body_err : forall b s, okay b s -> room n s ->
  Err true (steps_of true LoopBody) (loop_body_statement toks oc sr dr) s.
Proof.
  intros b s O R. set (s1 := mkP (cur s) (S (loops s))).
  assert (RE : rest s1 = rest s) by reflexivity.
  assert (O1 : okay true s1) by (split; [exact (proj1 O)|reflexivity]).
  assert (FIN : forall st (body : P stmt) s2, ext true s1 s2 -> Err true st body s2 ->
    forall c s',
    (match body s2 with
     | POk b s1 => match decr_loops_st s1 with
                   | Some s2 => POk b s2
                   | None => PPanic "attempt to subtract with overflow"
                   end
     | PErr c s1 => match decr_loops_st s1 with
                    | Some s2 => PErr c s2
                    | None => PPanic "attempt to subtract with overflow"
                    end
     | PPanic w => PPanic w
     | PFuel => PFuel
     end) = PErr c s' ->
    exists lk : bool, rejects true st (rest s2) (mkFailure c (rest s') lk) /\
      loops s' = loops s + if lk then 1 else 0).
  { intros st body s2 X2 H c s' M. destruct (body s2) as [st0 s3|c1 s3|w|] eqn:Z; try discriminate.
    - destruct (decr_loops_st s3); discriminate.
    - destruct (H c1 s3 Z) as (lk & RJ & L). destruct X2 as (_ & _ & _ & L2). cbn in L2.
      unfold decr_loops_st in M. rewrite L, L2 in M. cbn in M. injection M as <- <-.
      exists lk. split; auto. }
  intros c s' M. unfold loop_body_statement in M. unfold pbind at 1, incr_loops in M. fold s1 in M.
  unfold pbind at 1, gets in M. rewrite (block_ahead true) in M by auto. rewrite <- RE. clear RE.
  cbn [steps_of]. destruct (ahead [Terminator; LeftBrace] (rest s1)) eqn:A.
  - enough (G : exists lk : bool, rejects true [opening true "Expect '{' or indent before loop body."
        (fun k => Last (Statements k))] (rest s1) (mkFailure c (rest s') lk) /\
        loops s' = loops s + if lk then 1 else 0).
    { destruct G as (lk & RJ & L). exists lk. split; auto. constructor. rewrite A. cbn [app].
      revert RJ. apply opening_msg; auto. }
    destruct (valid_rest toks s1 (proj1 O1)) as (t & i & E).
    assert (A' := A). rewrite ahead_iff, E in A'. cbn in A'.
    unfold consume_begin_block in M.
    destruct (matches_yes true [Terminator; LeftBrace] s1 O1 ltac:(noeof) A) as (t' & s2 & MT & T2 & I2 & X2).
    assert (t' = t) by (destruct T2 as [T2 _]; rewrite E in T2; now injection T2). subst t'.
    assert (O2 := ext_okay _ _ _ _ X2).
    unfold pbind at 1 2 3 in M. rewrite MT in M.
    assert (E2 : rest s1 = t :: rest s2) by apply T2.
    destruct A' as [K|[K|[]]]; rewrite <- K in M.
    + destruct (ahead [Indent] (rest s2)) eqn:A2.
      * destruct (matches_yes true [Indent] s2 O2 ltac:(noeof) A2) as (u & s3 & MU & T3 & I3 & X3).
        unfold pbind at 1, consume, consume_any_of in M. unfold pbind at 1 in M. rewrite MU in M.
        unfold pret at 1 2 3 in M.
        assert (X13 : ext true s1 s3) by (eapply ext_trans; eauto).
        assert (O3 := ext_okay _ _ _ _ X13).
        eapply (FIN (steps_of true (Statements Outdent))) in M; [|exact X13|].
        2:{ apply e_then; [|intros ? ? ? ?; discriminate]. apply finish_block_err; auto.
            unfold ParseSound.room in *. destruct T2 as [_ C2], T3 as [_ C3]. cbn in C2. lia. }
        destruct M as (lk & RJ & L). exists lk. split; auto. constructor. rewrite E2.
        cbn [ahead]. rewrite <- K. change (existsb (tt_eqb Terminator) [Terminator]) with true.
        cbn [app]. constructor.
        assert (E3 : rest s2 = u :: rest s3) by apply T3. rewrite E3. rewrite E3 in A2.
        apply rj_need; auto. now apply rj_last.
      * assert (MU := matches_no true [Indent] s2 O2 A2).
        unfold pbind at 1, consume, consume_any_of in M. unfold pbind at 1 in M. rewrite MU in M.
        destruct (valid_rest toks s2 (proj1 O2)) as (u & j & E3).
        rewrite (error_peek true _ _ s2 u j O2 E3) in M. injection M as <- <-.
        exists true. split.
        -- constructor. rewrite E2. cbn [ahead]. rewrite <- K.
           change (existsb (tt_eqb Terminator) [Terminator]) with true. cbn [app]. constructor.
           rewrite E3 in *. now apply rj_missing.
        -- destruct X2 as (_ & _ & _ & ->). cbn. lia.
    + unfold pret at 1 2 in M.
      eapply (FIN (steps_of true (Statements RightBrace))) in M; [|exact X2|].
      2:{ apply e_then; [|intros ? ? ? ?; discriminate]. apply finish_block_err; auto.
          unfold ParseSound.room in *. destruct T2 as [_ C2]. cbn in C2. lia. }
      destruct M as (lk & RJ & L). exists lk. split; auto. constructor. rewrite E2.
      cbn [ahead]. rewrite <- K. change (existsb (tt_eqb LeftBrace) [Terminator]) with false.
      change (existsb (tt_eqb LeftBrace) [LeftBrace]) with true.
      cbn [app]. constructor. now apply rj_last.
  - unfold pbind at 1, pret at 1 in M.
    eapply (FIN (steps_of true Statement)) in M; [|now apply ext_refl|apply ES; auto].
    destruct M as (lk & RJ & L). exists lk. split; auto. constructor. rewrite A. cbn [app].
    now apply rj_last.
Qed.
Lemma e_look_app : forall b k st st' A (m : P A) s,
  Err b ((k (rest s) ++ st) ++ st') m s -> Err b ((Look k :: st) ++ st') m s.
Proof. intros. cbn [app]. apply e_look. now rewrite app_assoc. Qed.
Lemma while_err : forall b s, okay b s -> room n s ->
  Err b [need parens "Expect '(' after while."; Sub Expression;
         need [RightParen] "Expect ')' after while condition."; Last LoopBody]
    (finish_while_statement toks oc er sr dr) s.
Proof.
  intros b s O R. unfold finish_while_statement. apply e_need; auto; [noeof|].
  intros s1 t T I X O1. sub_expr. apply e_consume; auto; [discriminate|].
  intros s2 u T2 K2 X2 O2. apply e_last. apply e_then; [|intros ? ? ? ?; discriminate].
  cbn [inside]. eapply loop_body_err; eauto. rm.
Qed.
Lemma if_err : forall b s, okay b s -> room n s ->
  Err b [need parens "Expect '(' after if."; Sub Expression;
         need [RightParen] "Expect ')' after if condition."; Sub Branch;
         Look (fun i => if ahead [Else] i then [Skip; Last Statement] else nil)]
    (finish_if_statement toks oc er sr dr) s.
Proof.
  intros b s O R. unfold finish_if_statement. apply e_need; auto; [noeof|].
  intros s1 t T I X O1. sub_expr. apply e_consume; auto; [discriminate|].
  intros s2 u T2 K2 X2 O2.
  eapply e_ext; [apply if_assoc2|].
  fold (branch_fn toks oc sr dr "Expect '{' or indent before if body.").
  eapply e_sub; [apply (branch_sound toks trailing oc OK sr dr n HS HD); auto; rm|apply branch_err; auto; rm|].
  intros st s3 [H3 C3] X3 O3. split; [eexists; exact H3|].
  apply e_look. destruct (ahead [Else] (rest s3)) eqn:A; cbn [app].
  - apply e_match_yes; auto; [discriminate|]. intros s4 v T4 K4 X4 O4. apply e_assoc.
    apply e_last. apply e_then; [apply ES; auto; rm|intros ? ? ? ?; discriminate].
  - apply e_match_no; auto; [discriminate|]. intros c1 s1' M1. discriminate.
Qed.
Lemma for_init_err : forall b s, okay b s -> room (S n) s ->
  Err b (steps_of b ForInit) (for_init_fn toks trailing oc er dr) s.
Proof.
  intros b s O R. unfold for_init_fn. cbn [steps_of]. apply e_look.
  destruct (ahead [Semicolon] (rest s)) eqn:A.
  - destruct (match_token_yes b Semicolon s O ltac:(discriminate) A) as (t & s1 & M & _).
    intros c s' Z. unfold pbind in Z. rewrite M in Z. discriminate.
  - apply e_match_no; auto; [discriminate|]. destruct (ahead [Var] (rest s)) eqn:A2; cbn [app].
    + apply e_match_yes; auto; [discriminate|]. intros s1 t T K X O1. apply e_last.
      apply e_then; [apply var_declaration_err; auto; rm|intros ? ? ? ?; discriminate].
    + apply e_match_no; auto; [discriminate|]. apply e_last.
      apply e_then; [apply expression_statement_err; auto|intros ? ? ? ?; discriminate].
Qed.
Lemma for_err : forall b s, okay b s -> room n s ->
  Err b [need parens "Expect '(' after for."; Sub ForInit;
         unless Semicolon [Sub Expression];
         need [Semicolon] "Expect ';' after for-loop condition.";
         unless RightParen [Sub Expression];
         need [RightParen] "Expect ')' after for-loop increment."; Last LoopBody]
    (finish_for_statement toks trailing oc er sr dr) s.
Proof.
  intros b s O R. unfold finish_for_statement. apply e_need; auto; [noeof|].
  intros s1 t T I X O1. eapply e_ext; [apply if_assoc2|].
  fold (for_init_fn toks trailing oc er dr).
  eapply e_sub; [apply (for_init_sound toks trailing oc OK er dr n HE HD); auto; rm
    |apply for_init_err; auto; rm|].
  intros init s2 [H2 C2] X2 O2. split; [eexists; exact H2|].
  assert (LAST : forall c inc s3, okay b s3 -> room n s3 ->
    Err b [need [RightParen] "Expect ')' after for-loop increment."; Last LoopBody]
     (pdo consume toks oc RightParen "Expect ')' after for-loop increment." ;;
      plet loop_body <- loop_body_statement toks oc sr dr ;;
      let while_loop := match inc with
                        | None => SWhile c loop_body
                        | Some inc => SWhileIncrement c loop_body inc
                        end in
      match init with
      | None => pret while_loop
      | Some init => pret (SBlock [init; while_loop])
      end) s3).
  { intros c inc s3 O3 R3. apply e_consume; auto; [discriminate|]. intros s4 u T4 K4 X4 O4.
    apply e_last. apply e_then; [|intros a s5 c0 s'; destruct init; discriminate].
    cbn [inside]. eapply loop_body_err; eauto. rm. }
  assert (MID : forall c s3, okay b s3 -> room n s3 ->
    Err b [need [Semicolon] "Expect ';' after for-loop condition.";
           unless RightParen [Sub Expression];
           need [RightParen] "Expect ')' after for-loop increment."; Last LoopBody]
     (pdo consume toks oc Semicolon "Expect ';' after for-loop condition." ;;
      plet no_inc <- check toks RightParen ;;
      plet increment <- (if (no_inc : bool) then pret None
                         else plet e <- expression toks oc er dr ;; pret (Some e)) ;;
      pdo consume toks oc RightParen "Expect ')' after for-loop increment." ;;
      plet loop_body <- loop_body_statement toks oc sr dr ;;
      let while_loop := match increment with
                        | None => SWhile c loop_body
                        | Some inc => SWhileIncrement c loop_body inc
                        end in
      match init with
      | None => pret while_loop
      | Some init => pret (SBlock [init; while_loop])
      end) s3).
  { intros c s3 O3 R3. apply e_consume; auto; [discriminate|]. intros s4 u T4 K4 X4 O4.
    apply e_check; auto; [discriminate|]. apply e_look.
    destruct (ahead [RightParen] (rest s4)); cbn [app].
    - apply e_ret_bind. apply (LAST c None); auto. rm.
    - apply e_assoc. sub_expr. apply e_ret_bind. apply (LAST c (Some e)); auto. rm. }
  apply e_check; auto; [discriminate|]. apply e_look.
  destruct (ahead [Semicolon] (rest s2)); cbn [app].
  - apply e_ret_bind. apply MID; auto. rm.
  - sub_expr. apply MID; auto. rm.
Qed.
Lemma statement_err : forall b s, okay b s -> room (S n) s ->
  Err b (steps_of b Statement) (statement toks trailing oc er sr dr) s.
Proof.
  intros b s O R. unfold statement. cbn [steps_of]. apply e_look. rewrite app_nil_r.
  destruct (valid_rest toks s (proj1 O)) as (t & i & E).
  assert (HA : forall ks, ahead ks (rest s) = tt_mem (t_type t) ks) by (intros; now rewrite E).
  set (ks := [Break; Continue; For; If; LeftBrace; Print; Return; While]).
  assert (YES : forall st (f : option (token_type * source_loc) -> P stmt), In (t_type t) ks ->
    (room n (advance_st toks s) -> forall s1, took t s s1 -> ext b s s1 -> okay b s1 -> room n s1 ->
      Err b st (f (Some (t_type t, tloc t))) s1) ->
    Err b (Skip :: st) (pbind (matches toks ks) f) s).
  { intros st f I H. apply e_matches_yes; auto; [noeof| |].
    - rewrite HA. now apply tt_mem_iff.
    - intros s1 u T I1 X O1. assert (u = t) by (destruct T as [T _]; rewrite E in T; now injection T).
      subst u. apply H; auto; [|rm]. clear H. 
      destruct (advance_took toks OK s t i (proj1 O) E) as (_ & [_ C] & _).
      { intros K. rewrite K in I. cbn in I. intuition discriminate. }
      unfold ParseSound.room in *. lia. }
  assert (BRK2 : forall (v : stmt) msg st s1, took t s s1 -> ext b s s1 -> okay b s1 ->
    Err b (if b then [need [Terminator] msg] else [Reject (error_at t st)])
      (plet k <- gets loops ;; if k =? 0 then error_from_last toks oc st
       else pdo consume toks oc Terminator msg ;; pret v) s1).
  { intros v msg st s1 T X O1. apply e_get. destruct O1 as [V1 I1]. unfold ParseRun.inside in I1.
    destruct b.
    - replace (loops s1 =? 0) with false by (symmetry; apply Nat.eqb_neq; apply Nat.ltb_lt in I1; lia).
      apply e_consume; [split; auto|discriminate|]. intros. apply e_ret.
    - replace (loops s1 =? 0) with true by (symmetry; apply Nat.eqb_eq; apply Nat.ltb_ge in I1; lia).
      eapply e_wrong; eauto. }
  assert (NO : tt_mem (t_type t) ks = false -> Err b [Last ExpressionStatement]
     (plet o <- matches toks ks ;;
      match o with
      | None => expression_statement toks trailing oc er dr
      | Some (Break, l) => finish_break_statement toks oc l
      | Some (Continue, l) => finish_continue_statement toks oc l
      | Some (For, _) => finish_for_statement toks trailing oc er sr dr
      | Some (If, _) => finish_if_statement toks oc er sr dr
      | Some (LeftBrace, _) => plet b <- finish_block toks oc dr RightBrace ;; pret (SBlock b)
      | Some (Print, _) => finish_print_statement toks oc er dr
      | Some (Return, l) => finish_return_statement toks oc er dr l
      | Some (While, _) => finish_while_statement toks oc er sr dr
      | Some _ => ppanic "statement: unexpected token type"
      end) s).
  { intros A. apply e_matches_no; auto; [now rewrite HA|]. apply e_last, expression_statement_err; auto. }
  rewrite !HA. destruct (t_type t) eqn:K; known; try (apply NO; reflexivity); clear NO.
  - (* LeftBrace *) apply YES; [cbn; auto 10|]. intros _ s1 T X O1 R1. apply e_last.
    apply e_then; [|intros ? ? ? ?; discriminate]. apply finish_block_err; auto.
  - (* Break *)
    match goal with |- Err b ?st _ _ =>
      assert (W : forall f : P stmt, Err b (Skip :: if b then [need [Terminator] "Expect newline after break."]
        else [Reject (error_at t "Found break statement outside of loop body")]) f s -> Err b st f s) end.
    { intros f H. destruct b; auto. apply e_look. rewrite E. exact H. }
    apply W, YES; [cbn; auto 10|]. intros _ s1 T X O1 R1. apply BRK2; auto.
  - (* Continue *)
    match goal with |- Err b ?st _ _ =>
      assert (W : forall f : P stmt, Err b (Skip :: if b then [need [Terminator] "Expect newline after continue."]
        else [Reject (error_at t "Found continue statement outside of loop body")]) f s -> Err b st f s) end.
    { intros f H. destruct b; auto. apply e_look. rewrite E. exact H. }
    apply W, YES; [cbn; auto 10|]. intros _ s1 T X O1 R1. apply BRK2; auto.
  - (* For *) apply YES; [cbn; auto 10|]. intros _ s1 T X O1 R1. now apply for_err.
  - (* If *) apply YES; [cbn; auto 10|]. intros _ s1 T X O1 R1. now apply if_err.
  - (* Print *) apply YES; [cbn; auto 10|]. intros _ s1 T X O1 R1. unfold finish_print_statement.
    sub_expr. apply e_consume; auto; [discriminate|]. intros. apply e_ret.
  - (* Return *) apply YES; [cbn; auto 10|]. intros _ s1 T X O1 R1. unfold finish_return_statement.
    apply e_check; auto; [discriminate|]. apply e_look. destruct (ahead [Terminator] (rest s1)); cbn [app].
    + apply e_ret_bind. apply e_consume; auto; [discriminate|]. intros. apply e_ret.
    + sub_expr. apply e_consume; auto; [discriminate|]. intros. apply e_ret.
  - (* While *) apply YES; [cbn; auto 10|]. intros _ s1 T X O1 R1. now apply while_err.
Qed.
Lemma declaration_err : forall b s, okay b s -> room (S n) s ->
  Err b (steps_of b Declaration) (declaration toks trailing oc er sr dr) s.
Proof.
  intros b s O R. unfold declaration. cbn [steps_of]. apply e_look. rewrite app_nil_r.
  destruct (ahead [Class] (rest s)) eqn:A1.
  { apply e_match_yes; auto; [discriminate|]. intros s1 t T K X O1. apply class_err; auto. rm. }
  apply e_match_no; auto; [discriminate|]. apply e_get.
  rewrite (check_ahead b) by (auto; discriminate). rewrite (check_next_ahead b) by auto.
  destruct (ahead [Fun] (rest s) && ahead [Identifier] (tl (rest s))) eqn:A2.
  { apply andb_true_iff in A2. destruct A2 as [A2 A3].
    destruct (matches_yes b [Fun] s O ltac:(noeof) A2) as (t & s1 & M & T & I & X).
    assert (O1 := ext_okay _ _ _ _ X).
    intros c s' Z. unfold pbind at 1, consume, consume_any_of in Z. unfold pbind at 1 in Z.
    rewrite M in Z. unfold pret at 1 in Z.
    eapply (skip_err b (Skip :: [Last FunctionBody])); [exact T|apply X| |exact Z].
    assert (T' := T). destruct T' as [T' _]. rewrite T' in A3. cbn [tl] in A3.
    destruct (valid_rest toks s1 (proj1 O1)) as (u & i & E1).
    rewrite ahead_iff, E1, starts_one in A3.
    unfold finish_fun_declaration, consume_identifier. apply e_assoc, e_assoc, e_get.
    rewrite rest_nth, E1. cbn [hd_error]. rewrite A3. change (tt_eqb Identifier Identifier) with true.
    cbn match. apply e_assoc. eapply e_advance; eauto; [congruence|].
    intros s2 T2 X2 O2. apply e_ret_bind, e_assoc, e_last. cbn [inside].
    apply e_then; [apply function_err; auto; rm|]. intros ? ? ? ?; discriminate. }
  destruct (ahead [Var] (rest s)) eqn:A3.
  { apply e_match_yes; auto; [discriminate|]. intros s1 t T K X O1. apply e_last, var_declaration_err; auto. rm. }
  apply e_match_no; auto; [discriminate|]. apply e_last, statement_err; auto.
Qed.
End Level.

(** ** The knot *)
Lemma level_err : forall n,
  (forall b s, okay b s -> room toks n s ->
    Err b (steps_of b Expression) (k_expr (level toks trailing oc n)) s) /\
  (forall b s, okay b s -> room toks n s ->
    Err b (steps_of b Statement) (k_stmt (level toks trailing oc n)) s) /\
  (forall b s, okay b s -> room toks n s ->
    Err b (steps_of b Declaration) (k_decl (level toks trailing oc n)) s).
Proof.
  induction n as [|n (IE & IS & ID)].
  - repeat split; intros b s O R c s' E; discriminate.
  - destruct (level_sound toks trailing oc OK n) as (SE & SS & SD).
    cbn [level k_expr k_stmt k_decl]. repeat split; intros b s O R.
    + apply (expression_err _ _ n); auto.
    + apply (statement_err _ _ _ n); auto.
    + apply (declaration_err _ _ _ n); auto.
Qed.
End Reject.
