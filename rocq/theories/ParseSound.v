(** Every parser function, run on tokens of the scanner, ends without a panic,
    reports errors at tokens it has looked at, and on success has derived what
    it read.  One pass over the functions of Parser.v. *)
From Verif Require Import Base F64 Token Ast Scanner Parser SpecGrammar ParseRun.
From Coq Require Import Lia.

(** Insertion into a map literal. *)
Lemma map_insert_spec : forall V (m : list (string * V)) k v m' old,
  map_insert m k v = (m', old) ->
  match old with
  | Some _ => In k (map fst m)
  | None => ~ In k (map fst m) /\ m' = m ++ [(k, v)]
  end.
Proof.
  induction m as [|[k0 v0] m IH]; intros k v m' old H; cbn in H.
  - injection H as <- <-. split; auto.
  - destruct (String.eqb_spec k0 k) as [->|N].
    + injection H as <- <-. now left.
    + destruct (map_insert m k v) as [r' old'] eqn:E. injection H as <- <-.
      specialize (IH k v r' old' E). destruct old'; cbn; [now right|].
      destruct IH as [I ->]. split; auto. now intros [?|?].
Qed.

Lemma NoDup_snoc : forall A (l : list A) a, NoDup l -> ~ In a l -> NoDup (l ++ [a]).
Proof.
  intros A l a H N. apply NoDup_rev in H. rewrite <- (rev_involutive (l ++ [a])), rev_app_distr.
  apply NoDup_rev. cbn. constructor; auto. now rewrite <- in_rev.
Qed.

(** One round of a loop over left-associative operators. *)
Definition tail_body (toks : list token) (lv : nat) (ks : list token_type) (next : P expr)
  (self : expr -> P expr) (e : expr) : P expr :=
  pbind (matches toks ks) (fun o => match o with
    | None => pret e
    | Some (k, l) => pbind next (fun rhs =>
        match operator lv k with
        | Some f => self (f e l rhs)
        | None => ppanic "unreachable"
        end)
    end).
Record tail_shape (toks : list token) (lv : nat) (ks : list token_type) (next : P expr)
  (loop : nat -> expr -> P expr) : Prop := mkTail {
  ts_round : forall n e s, loop (S n) e s = tail_body toks lv ks next (loop n) e s;
  ts_ops : forall k, In k ks <-> operator lv k <> None
}.
Ltac shape := constructor;
  [ intros n e s; unfold tail_body; cbn [multiplication_loop addition_loop comparison_loop
      equality_loop and_loop or_loop]; unfold pbind;
    match goal with |- context [matches ?t ?k s] =>
      destruct (matches t k s) as [[[k0 l]|] s1| | |]; auto end;
    match goal with |- context [match ?m ?x with _ => _ end] => destruct (m x) as [rhs s2| | |]; auto end;
    match goal with k : token_type |- _ => destruct k; reflexivity end
  | intros k; destruct k; cbn; intuition discriminate ].
Ltac shape2 := constructor;
  [ intros n e s; unfold tail_body; cbn [and_loop or_loop]; unfold pbind;
    unfold match_token, check, matches, gets, pbind, check_st, is_at_end, tok_is;
    destruct (peek _ s) as [t|]; cbn; auto; rewrite orb_false_r;
    destruct (t_type t); cbn; auto
  | intros k; destruct k; cbn; intuition discriminate ].
Section Shapes.
Variable toks : list token.
Variable oc : bool.
Variable er : P expr.
Variable dr : P stmt.
Lemma mult_shape : tail_shape toks 5 [Slash; Star] (unary toks oc er dr)
  (multiplication_loop toks oc er dr).
Proof. shape. Qed.
Lemma add_shape : tail_shape toks 4 [Minus; Plus] (multiplication toks oc er dr)
  (addition_loop toks oc er dr).
Proof. shape. Qed.
Lemma cmp_shape : tail_shape toks 3 [Less; Greater; LessEqual; GreaterEqual]
  (addition toks oc er dr) (comparison_loop toks oc er dr).
Proof. shape. Qed.
Lemma eq_shape : tail_shape toks 2 [BangEqual; EqualEqual] (comparison toks oc er dr)
  (equality_loop toks oc er dr).
Proof. shape. Qed.
Lemma and_shape : tail_shape toks 1 [And] (equality toks oc er dr) (and_loop toks oc er dr).
Proof. shape2. Qed.
Lemma or_shape : tail_shape toks 0 [Or] (and_ toks oc er dr) (or_loop toks oc er dr).
Proof. shape2. Qed.
End Shapes.

Section Sound.
Variable toks : list token.
Variable trailing oc : bool.
Hypothesis OK : tokens_ok toks.

Notation rest := (rest toks).
Notation okay := (okay toks).
Notation run := (run toks).
Notation took := (took toks).
Notation D b N s v s' := (derives trailing b N (rest s) v (rest s')).

(** Something was read; or nothing, at [this] before a colon. *)
Definition moved (s s' : pstate) : Prop :=
  cur s < cur s' \/ (s' = s /\ starts [This] (rest s)).
Definition stayed (s s' : pstate) : Prop := cur s < cur s' \/ s' = s.
Lemma moved_stayed : forall s s1 s2, moved s s1 -> stayed s1 s2 -> moved s s2.
Proof.
  intros s s1 s2 [M|[-> M]] [S | ->]; unfold moved; auto; left; lia.
Qed.
Lemma stayed_trans : forall s s1 s2, stayed s s1 -> stayed s1 s2 -> stayed s s2.
Proof. intros s s1 s2 [M| ->] [S | ->]; unfold stayed; auto; left; lia. Qed.

Section Level.
Variable er : P expr.
Variable sr dr : P stmt.
(** Room for recursive calls: levels left and tokens left. *)
Variable n : nat.
Definition room (n : nat) (s : pstate) : Prop := length toks < n + cur s.
Hypothesis HE : forall b s, okay b s -> room n s ->
  run b er s (fun e s' => D b Expression s (VE e) s' /\ moved s s').
Hypothesis HS : forall b s, okay b s -> room n s ->
  run b sr s (fun st s' => D b Statement s (VS st) s' /\ cur s < cur s').
Hypothesis HD : forall b s, okay b s -> room n s ->
  run b dr s (fun st s' => D b Declaration s (VS st) s' /\ cur s < cur s').

Ltac bind L := eapply run_bind; [L|].
Ltac cx := repeat match goal with X : ext _ _ _ _ |- _ => destruct X as (_ & _ & ? & ?) end.
Ltac rm := unfold room, took in *; cx; intuition lia.

(** ** Blocks and functions *)
Lemma block_loop_sound : forall b k fuel acc s, okay b s -> k <> Eof ->
  room n s -> room fuel s ->
  run b (block_loop toks dr fuel k acc) s (fun l s' =>
    exists l', l = acc ++ l' /\
      forall r, token_then k (rest s') r -> derives trailing b (Statements k) (rest s) (VSs l') r).
Proof.
  induction fuel as [|f IH]; intros acc s O K R F.
  - exfalso. destruct O as [[V _] _]. unfold room in F. lia.
  - cbn [block_loop]. apply run_get_bind.
    destruct (check_st toks k s || is_at_end toks s) eqn:C.
    + assert (E : negb (negb (check_st toks k s) && negb (is_at_end toks s)) = true)
        by (destruct (check_st toks k s), (is_at_end toks s); auto; discriminate).
      rewrite E. apply run_ret; auto. exists nil. rewrite app_nil_r. split; auto.
      intros r T. now apply d_statements_end.
    + assert (E : negb (negb (check_st toks k s) && negb (is_at_end toks s)) = false)
        by (destruct (check_st toks k s), (is_at_end toks s); auto; discriminate).
      rewrite E. bind ltac:(apply HD; auto). intros st s1 [H P1] X O1.
      eapply run_conseq; [apply IH; auto; rm|].
      intros l s' X' (l' & -> & Q). exists (st :: l'). rewrite <- app_assoc. split; auto.
      intros r T. eapply d_statements_more; eauto.
Qed.
Lemma finish_block_sound : forall b k s, okay b s -> k = Outdent \/ k = RightBrace ->
  room n s ->
  run b (finish_block toks oc dr k) s (fun l s' =>
    D b (Statements k) s (VSs l) s' /\ cur s < cur s').
Proof.
  intros b k s O K R. unfold finish_block.
  bind ltac:(apply block_loop_sound; auto; [destruct K; subst; discriminate | unfold room, loop_fuel; lia]).
  intros l s1 (l' & -> & Q) X1 O1. bind ltac:(apply run_end_block; auto).
  intros [] s2 (T & C) X2 O2. apply run_ret; auto. split; [now apply Q|rm].
Qed.
Lemma block_sound : forall b msg s, okay b s -> room (S n) s ->
  run b (plet k <- consume_begin_block toks oc msg ;; finish_block toks oc dr k) s (fun l s' =>
    D b Block s (VSs l) s' /\ cur s < cur s').
Proof.
  intros b msg s O R. bind ltac:(apply run_begin_block; auto).
  intros k s1 (Op & C & K) X1 O1. eapply run_conseq; [apply finish_block_sound; auto; rm|].
  intros l s2 X2 (H & C2). split; [|lia]. eapply d_block; eauto.
Qed.

Lemma param_loop_sound : forall b fuel acc s, okay b s -> room fuel s ->
  length acc <= 255 ->
  run b (param_loop toks oc fuel acc) s (fun ps s' =>
    exists ps', ps = acc ++ ps' /\ length ps <= 255 /\ D b Parameters s (VPs ps') s' /\
    cur s < cur s').
Proof.
  induction fuel as [|f IH]; intros acc s O F L.
  - exfalso. destruct O as [[V _] _]. unfold room in F. lia.
  - cbn [param_loop]. apply runf_start. eapply runf_bind; [now apply ext_refl | apply run_identifier; auto|].
    intros [name l] s1 (t & T & K & E) X1 O1 _. injection E as -> ->.
    destruct (255 <=? length acc) eqn:Z.
    + eapply runf_fail; [now apply ext_refl | exact X1 | apply T | destruct T; lia | split; cbn; auto].
    + apply runf_run; [auto|].
      apply Nat.leb_gt in Z. bind ltac:(apply run_match_token; auto; discriminate).
      intros [|] s2 H X2 O2.
      * destruct H as (u & U & KU). eapply run_conseq; [apply IH; auto|].
        -- rm.
        -- rewrite app_length. cbn. lia.
        -- intros ps s3 X3 (ps' & -> & L3 & Q & C3). exists (mkParam (t_lexeme t) (tloc t) :: ps').
           rewrite <- app_assoc in *. split; auto. split; [auto|]. split; [|rm].
           eapply d_parameters_more; eauto using took_then, took_name.
      * destruct H as [-> N]. apply run_ret; auto. eexists. split; [reflexivity|].
        rewrite app_length. cbn. split; [lia|]. split; [|rm].
        apply d_parameters_one; eauto using took_name.
Qed.
Lemma paren_took : forall t s s1, took t s s1 -> In (t_type t) [LeftParen; LeftParenAbutting] ->
  paren_then (rest s) (rest s1).
Proof.
  intros t s s1 T [I|[I|[]]]; [left|right]; eapply took_then; eauto.
Qed.
Lemma run_check_bind : forall b A k (f : bool -> P A) s Q, okay b s -> k <> Eof ->
  (starts [k] (rest s) -> run b (f true) s Q) ->
  (~ starts [k] (rest s) -> run b (f false) s Q) ->
  run b (pbind (check toks k) f) s Q.
Proof.
  intros b A k f s Q O N Y Z. unfold check. apply run_get_bind.
  destruct (check_st toks k s) eqn:C.
  - apply Y. apply (check_iff toks); auto. apply O.
  - apply Z. rewrite <- (check_iff toks) by (auto; apply O). congruence.
Qed.

Lemma run_ret_bind : forall b A B (a : A) (f : A -> P B) s Q,
  run b (f a) s Q -> run b (pbind (pret a) f) s Q.
Proof. intros. exact H. Qed.
Lemma run_bind_assoc : forall b A B C (m : P A) (f : A -> P B) (g : B -> P C) s Q,
  run b (pbind m (fun a => pbind (f a) g)) s Q -> run b (pbind (pbind m f) g) s Q.
Proof.
  intros b A B C m f g s Q H. unfold ParseRun.run, pbind in *.
  destruct (m s) as [a s1|c s1|w|]; auto.
Qed.
Lemma function_sound : forall b l s, okay b s -> room (S n) s ->
  run b (function_definition toks oc dr l) s (fun f s' =>
    D b (Function l) s (VF f) s' /\ cur s < cur s').
Proof.
  intros b l s O R. unfold function_definition.
  bind ltac:(apply run_consume_any; auto; cbn; intuition discriminate).
  intros [] s1 (t & T & I) X1 O1.
  assert (P1 := paren_took _ _ _ T I). apply run_check_bind; auto; [discriminate| |].
  - intros E. apply run_ret_bind. bind ltac:(apply run_consume; auto; discriminate).
    intros [] s2 (u & T2 & I2) X2 O2.
    bind ltac:(apply run_begin_block; auto). intros k s3 (Op & C3 & K) X3 O3.
    bind ltac:(apply finish_block_sound; auto; rm). intros body s4 [H C4] X4 O4.
    apply run_ret; auto. split; [|rm].
    eapply d_function_none; eauto using took_then. eapply d_block; eauto.
  - intros E. bind ltac:(apply param_loop_sound; auto; [unfold room, loop_fuel; lia | cbn; lia]).
    intros ps s2 (ps' & -> & L & H2 & C2) X2 O2.
    bind ltac:(apply run_consume; auto; discriminate).
    intros [] s3 (u & T3 & I3) X3 O3.
    bind ltac:(apply run_begin_block; auto). intros k s4 (Op & C4 & K) X4 O4.
    bind ltac:(apply finish_block_sound; auto; rm). intros body s5 [H C5] X5 O5.
    apply run_ret; auto. split; [|rm].
    eapply d_function_some; eauto using took_then. eapply d_block; eauto.
Qed.

(** ** Map and array literals, arguments *)
Lemma entry_iff : forall s, valid toks s ->
  (check_any_of_st toks [Identifier; TString] s && check_next_st toks Colon s = true <->
   entry_here (rest s)).
Proof.
  intros s V. rewrite andb_true_iff, (check_any_iff toks) by (auto; cbn; intuition discriminate).
  rewrite (check_next_iff toks OK) by auto. split.
  - intros (I & t & c & r & E & K). rewrite E in I. exists t, c, r. auto.
  - intros (t & c & r & E & I & K). rewrite E. split; [exact I|]. exists t, c, r. auto.
Qed.
Lemma separator_iff : forall s, valid toks s ->
  (check_st toks Comma s || check_st toks Terminator s &&
     (check_next_any_of_st toks [Identifier; TString] s && check_next_next_st toks Colon s
      || check_next_st toks RightBrace s) = true <->
   exists r, separator (rest s) r).
Proof.
  intros s V. rewrite orb_true_iff, andb_true_iff, orb_true_iff, andb_true_iff.
  rewrite !(check_iff toks) by (auto; discriminate).
  rewrite (check_next_any_iff toks OK), (check_next_next_iff toks OK), (check_next_iff toks OK) by auto.
  destruct (valid_rest toks s V) as (t & i & E). rewrite E. unfold separator, token_then, entry_here.
  rewrite !starts_one. split.
  - intros [K|[K H]]; [exists i; left; eauto|]. exists i. right. split; [eauto|].
    destruct H as [[(? & c & r & E1 & I) (? & ? & d & r' & E2 & K2)]|(? & c & r & E1 & K1)].
    + injection E1 as <- ->. injection E2 as <- <- ->. left. exists c, d, r'. auto.
    + injection E1 as <- ->. right. cbn. auto.
  - intros [r [(x & E1 & K)|[(x & E1 & K) [(u & c & q & -> & I & K2)|H]]]]; injection E1 as -> ->; auto.
    + right. split; auto. left. split; eauto 8.
    + right. split; auto. right. destruct r as [|c r]; [contradiction|]. apply starts_one in H. eauto.
Qed.
Lemma key_here : forall s t i, valid toks s -> rest s = t :: i ->
  In (t_type t) [Identifier; TString] -> exists k, key_of t k.
Proof.
  intros s t i V E [I|[I|[]]].
  - exists (t_lexeme t). left. auto.
  - destruct OK as [_ _ F]. rewrite Forall_forall in F.
    specialize (F t (rest_cons_in toks s t i E) (eq_sym I)).
    destruct (t_string t) as [k|] eqn:S; [|congruence]. exists k. right. auto.
Qed.
Lemma literal_map_sound : forall b fuel m s, okay b s -> room fuel s -> room (S n) s ->
  run b (literal_map_loop toks oc er fuel m) s (fun m2 s' =>
    exists m', m2 = m ++ m' /\ D b Entries s (VM m') s' /\
      (NoDup (map fst m) -> NoDup (map fst m2)) /\
      ((cur s < cur s' /\ entry_here (rest s)) \/ (s' = s /\ ~ entry_here (rest s) /\ m' = nil))).
Proof.
  induction fuel as [|f IH]; intros m s O F R.
  { exfalso. destruct O as [[V _] _]. unfold room in F. lia. }
  cbn [literal_map_loop]. apply run_get_bind.
  destruct (check_any_of_st toks [Identifier; TString] s && check_next_st toks Colon s) eqn:C; cbn [negb].
  2:{ assert (N : ~ entry_here (rest s)) by (rewrite <- entry_iff by apply O; congruence).
      apply run_ret; auto. exists nil. rewrite app_nil_r. repeat split; auto. now constructor. }
  apply entry_iff in C; [|apply O]. apply run_get_bind. rewrite rest_nth.
  destruct C as (t & c & r & E & I & K).
  replace (hd_error (rest s)) with (Some t) by now rewrite E.
  destruct (key_here s t (c :: r) (proj1 O) E I) as (k & HK).
  assert (Run : forall Q, run b (
      pdo advance toks ;; pdo consume toks oc Colon "Expect ':' after map key" ;;
      plet value <- er ;; let '(m', old) := map_insert m k value in
      match old with
      | Some _ => pfail (cause_at (tloc t) k "Duplicate key in literal map.")
      | None => plet more <- gets (fun s0 => check_st toks Comma s0 || check_st toks Terminator s0 &&
           (check_next_any_of_st toks [Identifier; TString] s0 && check_next_next_st toks Colon s0
            || check_next_st toks RightBrace s0)) ;;
        if more then pdo advance toks ;; literal_map_loop toks oc er f m' else pret m'
      end) s Q -> run b (plet key <- match t_type t with
        | Identifier => pret (t_lexeme t)
        | TString => match t_string t with Some v => pret v
                     | None => ppanic "primary: expected float literal to include parsed string" end
        | _ => ppanic "check() ensures this is unreachable" end ;;
      pdo advance toks ;; pdo consume toks oc Colon "Expect ':' after map key" ;;
      plet value <- er ;; let '(m', old) := map_insert m key value in
      match old with
      | Some _ => pfail (cause_at (tloc t) key "Duplicate key in literal map.")
      | None => plet more <- gets (fun s0 => check_st toks Comma s0 || check_st toks Terminator s0 &&
           (check_next_any_of_st toks [Identifier; TString] s0 && check_next_next_st toks Colon s0
            || check_next_st toks RightBrace s0)) ;;
        if more then pdo advance toks ;; literal_map_loop toks oc er f m' else pret m'
      end) s Q).
  { intros Q H. destruct HK as [[-> ->]|[-> ->]]; exact H. }
  apply Run. clear Run. apply runf_start. assert (X0 := ext_refl _ _ _ O).
  eapply runf_bind; [auto|eapply run_advance; eauto|].
  { destruct I as [I|[I|[]]]; rewrite <- I; discriminate. }
  intros [] s1 T1 X1 O1 _. eapply runf_bind; [auto|apply run_consume; auto; discriminate|].
  intros [] s2 (u & T2 & K2) X2 O2 X02.
  eapply runf_bind; [auto|apply HE; auto; rm|]. intros v s3 [H3 M3] X3 O3 X03.
  destruct (map_insert m k v) as [m' old] eqn:MI. apply map_insert_spec in MI.
  assert (C03 : cur s < cur s3) by rm.
  destruct old.
  { eapply runf_fail; [exact X0 | exact X03 | exact E | auto | split; cbn; eauto]. }
  destruct MI as [NI ->]. apply runf_run; auto. apply run_get_bind.
  assert (DI : rest s = t :: u :: rest s2).
  { destruct T1 as [-> _], T2 as [-> _]. reflexivity. }
  assert (ND : NoDup (map fst m) -> NoDup (map fst (m ++ [(k, v)]))).
  { intros H. rewrite map_app. cbn. apply NoDup_snoc; auto. }
  match goal with |- run b (if ?x then _ else _) _ _ => destruct x eqn:SP end.
  - apply separator_iff in SP; [|apply O3]. destruct SP as (r3 & SP).
    assert (Y : exists w, rest s3 = w :: r3 /\ t_type w <> Eof).
    { destruct SP as [(w & W & KW)|[(w & W & KW) _]]; exists w; rewrite KW; split; auto; discriminate. }
    destruct Y as (w & W & KW).
    bind ltac:(eapply run_advance; eauto). intros [] s4 T4 X4 O4.
    assert (R4 : rest s4 = r3) by (destruct T4 as [Z _]; rewrite W in Z; now injection Z).
    eapply run_conseq; [apply IH; auto; rm|].
    intros m2 s5 X5 (m' & -> & H5 & ND5 & _). exists ((k, v) :: m'). rewrite <- app_assoc in *.
    split; [auto|]. split; [|split; [auto | left; split; [rm|exists t, c, r; auto]]].
    rewrite DI. rewrite <- R4 in SP. eapply d_entries_more; eauto.
  - apply run_ret; auto. exists [(k, v)]. split; auto. split; [|split; [auto|left; split; [rm|exists t, c, r; auto]]].
    rewrite DI. apply d_entries_last; auto. intros r' Hs.
    assert (N : exists r, separator (rest s3) r) by eauto. apply separator_iff in N; [congruence|apply O3].
Qed.

Lemma array_loop_sound : forall b fuel acc s, okay b s -> room fuel s -> room n s ->
  run b (array_loop toks er fuel acc) s (fun es s' =>
    exists es', es = acc ++ es' /\ D b Elements s (VEs es') s').
Proof.
  induction fuel as [|f IH]; intros acc s O F R.
  { exfalso. destruct O as [[V _] _]. unfold room in F. lia. }
  cbn [array_loop]. bind ltac:(apply HE; auto). intros e s1 [H1 M1] X1 O1.
  bind ltac:(apply run_match_token; auto; discriminate). intros [|] s2 H X2 O2; cbn [negb].
  2:{ destruct H as [-> N]. apply run_ret; auto. exists [e]. split; auto. now apply d_elements_one. }
  destruct H as (t & T & K). apply run_check_bind; auto; [discriminate| |].
  - intros E. apply run_ret; auto. exists [e]. split; auto.
    eapply d_elements_comma; eauto using took_then.
  - intros E. eapply run_conseq; [apply IH; auto; rm|].
    intros es s3 X3 (es' & -> & H3). exists (e :: es'). rewrite <- app_assoc. split; auto.
    eapply d_elements_more; eauto using took_then.
Qed.
Lemma args_loop_sound : forall b fuel acc s, okay b s -> room fuel s -> room n s ->
  run b (args_loop toks oc er fuel acc) s (fun es s' =>
    exists es', es = acc ++ es' /\ length es <= 255 /\ D b Arguments s (VEs es') s' /\ moved s s').
Proof.
  induction fuel as [|f IH]; intros acc s O F R.
  { exfalso. destruct O as [[V _] _]. unfold room in F. lia. }
  cbn [args_loop]. destruct (255 <=? length acc) eqn:Z; [apply run_error_peek; auto|].
  apply Nat.leb_gt in Z. bind ltac:(apply HE; auto). intros e s1 [H1 M1] X1 O1.
  bind ltac:(apply run_match_token; auto; discriminate). intros [|] s2 H X2 O2.
  - destruct H as (t & T & K). eapply run_conseq; [apply IH; auto; rm|].
    intros es s3 X3 (es' & -> & L & H3 & M3). exists (e :: es'). rewrite <- app_assoc in *.
    split; auto. split; auto. split; [eapply d_arguments_more; eauto using took_then|left; rm].
  - destruct H as [-> N]. apply run_ret; auto. exists [e]. split; auto. rewrite app_length. cbn.
    split; [lia|]. split; auto. now apply d_arguments_one.
Qed.

(** ** Primary expressions *)
Lemma unexpected : forall b A msg s Q, okay b s ->
  run b (pdo advance toks ;; @error_from_last toks oc A msg) s Q.
Proof.
  intros b A msg s Q O. destruct (valid_rest toks s (proj1 O)) as (t & i & E).
  destruct (is_at_end toks s) eqn:Z.
  - unfold ParseRun.run, pbind, advance. rewrite advance_at_end by auto.
    apply at_end_iff in Z; [|apply O]. assert (H := error_last_end toks oc A msg s (proj1 O) Z).
    now destruct (error_from_last toks oc msg s).
  - apply runf_start. eapply runf_bind; [now apply ext_refl | eapply run_advance; eauto|].
    + intros K. assert (is_at_end toks s = true); [|congruence]. apply at_end_iff; [apply O|].
      rewrite E. now apply starts_one.
    + intros [] s1 T X O1 X1. apply runf_error_last; auto. destruct T; lia.
Qed.
Ltac adv E := eapply run_bind; [eapply run_advance; [eassumption|eassumption|exact E|congruence]|].
Lemma colon_iff : forall s t i, valid toks s -> rest s = t :: i ->
  (check_next_st toks Colon s = true <-> starts [Colon] i).
Proof.
  intros s t i V E. rewrite (check_next_iff toks OK) by auto. rewrite E. split.
  - intros (? & c & r & X & K). injection X as <- ->. now apply starts_one.
  - destruct i as [|c r]; [contradiction|]. intros K. apply starts_one in K. eauto 6.
Qed.
Lemma primary_sound : forall b s, okay b s -> room (S n) s ->
  run b (primary toks oc er dr) s (fun e s' => D b Primary s (VE e) s' /\ moved s s').
Proof.
  intros b s O R. unfold primary. apply run_get_bind. rewrite rest_nth.
  destruct (valid_rest toks s (proj1 O)) as (t & i & E).
  replace (hd_error (rest s)) with (Some t) by now rewrite E.
  assert (TI : In t toks) by (eapply rest_cons_in; eauto).
  assert (TK : forall s1, took t s s1 -> rest s1 = i)
    by (intros s1 [Z _]; rewrite E in Z; now injection Z).
  assert (MV : forall s1 s2, took t s s1 -> cur s1 <= cur s2 -> moved s s2)
    by (intros s1 s2 [_ Z] L; left; lia).
  assert (map_case : check_next_st toks Colon s = true ->
    In (t_type t) [Identifier; TString; This] ->
    run b (plet m <- literal_map toks oc er ;; pret (EMap m)) s
      (fun e s' => D b Primary s (VE e) s' /\ moved s s')).
  { intros C I. apply (colon_iff s t i) in C; auto; [|apply O].
    bind ltac:(apply literal_map_sound; auto; unfold room, loop_fuel; lia).
    intros m s1 (m' & -> & H & ND & M) X O1. apply run_ret; auto. cbn [app] in *.
    destruct i as [|c r]; [contradiction|]. apply starts_one in C.
    destruct (token_type_eq_dec (t_type t) This) as [TT|TT].
    - assert (NE : ~ entry_here (rest s)).
      { intros (t' & c' & r' & E' & I' & K). rewrite E in E'. injection E' as <- <- <-.
        rewrite TT in I'. cbn in I'. intuition discriminate. }
      destruct M as [[_ M]|(-> & _ & ->)].
      + contradiction.
      + split; [|right; split; auto; rewrite E; now apply starts_one].
        rewrite E. now apply d_this_map.
    - assert (EH : entry_here (rest s)).
      { exists t, c, r. split; auto. split; auto. cbn in *. intuition. }
      destruct M as [[M _]|(_ & NE & _)]; [|contradiction].
      split; [|now left]. apply d_bare_map; auto. apply ND. constructor. }
  destruct (t_type t) eqn:K; try (apply unexpected; auto; fail).
  - (* LeftParen *) adv E. intros [] s1 T1 X1 O1. bind ltac:(apply HE; auto; rm).
    intros e s2 [H2 M2] X2 O2. bind ltac:(apply run_consume; auto; discriminate).
    intros [] s3 (u & T3 & K3) X3 O3. apply run_ret; auto. split; [|eapply MV; eauto; rm].
    eapply d_grouping; [left; eapply took_then; eauto|eauto|eauto using took_then].
  - (* LeftParenAbutting *) adv E. intros [] s1 T1 X1 O1. bind ltac:(apply HE; auto; rm).
    intros e s2 [H2 M2] X2 O2. bind ltac:(apply run_consume; auto; discriminate).
    intros [] s3 (u & T3 & K3) X3 O3. apply run_ret; auto. split; [|eapply MV; eauto; rm].
    eapply d_grouping; [right; eapply took_then; eauto|eauto|eauto using took_then].
  - (* LeftBrace *) adv E. intros [] s1 T1 X1 O1.
    bind ltac:(apply literal_map_sound; auto; unfold room, loop_fuel in *; cx; lia).
    intros m s2 (m' & -> & H2 & ND & M2) X2 O2. bind ltac:(apply run_consume; auto; discriminate).
    intros [] s3 (u & T3 & K3) X3 O3. apply run_ret; auto. split; [|eapply MV; eauto; rm].
    eapply d_brace_map; [eapply took_then; eauto|eauto|apply ND; constructor|eauto using took_then].
  - (* LeftBracket *) adv E. intros [] s1 T1 X1 O1. apply run_check_bind; auto; [discriminate| |].
    + intros S1. apply run_ret_bind. bind ltac:(apply run_consume; auto; discriminate).
      intros [] s3 (u & T3 & K3) X3 O3. apply run_ret; auto. split; [|eapply MV; eauto; rm].
      eapply d_array_empty; eapply took_then; eauto.
    + intros S1. bind ltac:(apply array_loop_sound; auto; [unfold room, loop_fuel in *; lia|rm]).
      intros es s2 (es' & -> & H2) X2 O2. bind ltac:(apply run_consume; auto; discriminate).
      intros [] s3 (u & T3 & K3) X3 O3. apply run_ret; auto. split; [|eapply MV; eauto; rm].
      eapply d_array; eauto using took_then.
  - (* Identifier *) apply run_get_bind. destruct (check_next_st toks Colon s) eqn:C; [auto with *|].
    adv E. intros [] s1 T1 X1 O1. apply run_ret; auto. split; [|eapply MV; eauto].
    rewrite E, (TK _ T1). apply d_variable; [rewrite K; cbn; auto|].
    rewrite <- (colon_iff s t i) by (auto; apply O). congruence.
  - (* TString *) apply run_get_bind. destruct (check_next_st toks Colon s) eqn:C; [auto with *|].
    destruct (t_string t) as [v|] eqn:V.
    2:{ exfalso. destruct OK as [_ _ F]. rewrite Forall_forall in F. now apply (F t TI). }
    adv E. intros [] s1 T1 X1 O1. apply run_ret; auto. split; [|eapply MV; eauto].
    rewrite E, (TK _ T1). apply d_string; auto.
    rewrite <- (colon_iff s t i) by (auto; apply O). congruence.
  - (* Number *) destruct (t_float t) as [v|] eqn:V.
    2:{ exfalso. destruct OK as [_ F _]. rewrite Forall_forall in F. now apply (F t TI). }
    adv E. intros [] s1 T1 X1 O1. apply run_ret; auto. split; [|eapply MV; eauto].
    rewrite E, (TK _ T1). now apply d_number.
  - (* TFalse *) adv E. intros [] s1 T1 X1 O1. apply run_ret; auto. split; [|eapply MV; eauto].
    rewrite E, (TK _ T1). now apply d_false.
  - (* Fun *) apply runf_start. eapply runf_bind;
      [now apply ext_refl|eapply run_advance; [eassumption|eassumption|exact E|congruence]|].
    intros [] s1 T1 X1 O1 _. eapply runf_bind; [exact X1|apply run_match_token; auto; discriminate|].
    intros [|] s2 H X2 O2 X02.
    + apply runf_error_last; auto. destruct H as (u & [_ ?] & _), T1. lia.
    + destruct H as [-> N]. apply runf_run; auto. bind ltac:(apply function_sound; auto; rm).
      intros f s3 [H3 C3] X3 O3. apply run_ret; auto. split; [|eapply MV; eauto; rm].
      rewrite E. eapply d_function; eauto. now rewrite <- (TK _ T1).
  - (* Nil *) adv E. intros [] s1 T1 X1 O1. apply run_ret; auto. split; [|eapply MV; eauto].
    rewrite E, (TK _ T1). now apply d_nil.
  - (* Super *) adv E. intros [] s1 T1 X1 O1. bind ltac:(apply run_consume; auto; discriminate).
    intros [] s2 (u & T2 & K2) X2 O2. bind ltac:(apply run_identifier; auto).
    intros [id l] s3 (w & T3 & K3 & Z) X3 O3. injection Z as -> ->.
    apply run_ret; auto. split; [|eapply MV; eauto; rm].
    rewrite E. eapply d_super; [auto| |eapply took_name; eauto].
    rewrite <- (TK _ T1). eauto using took_then.
  - (* This *) apply run_get_bind. destruct (check_next_st toks Colon s) eqn:C; [auto with *|].
    adv E. intros [] s1 T1 X1 O1. apply run_ret; auto. split; [|eapply MV; eauto].
    rewrite E, (TK _ T1). apply d_variable; [rewrite K; cbn; auto|].
    rewrite <- (colon_iff s t i) by (auto; apply O). congruence.
  - (* TTrue *) adv E. intros [] s1 T1 X1 O1. apply run_ret; auto. split; [|eapply MV; eauto].
    rewrite E, (TK _ T1). now apply d_true.
Qed.

(** ** Calls and operators *)
Lemma call_loop_sound : forall b fuel e s, okay b s -> room fuel s ->
  room n s \/ (starts [This] (rest s) /\ 0 < fuel) ->
  run b (call_loop toks oc er fuel e) s (fun e' s' =>
    D b (CallTail e) s (VE e') s' /\ stayed s s').
Proof.
  induction fuel as [|f IH]; intros e s O F R.
  { exfalso. destruct O as [[V _] _]. unfold room in F. lia. }
  cbn [call_loop].
  bind ltac:(apply run_matches; auto; cbn; intuition discriminate).
  intros [[k l]|] s1 H X1 O1.
  - destruct H as (t & T & K & -> & I).
    assert (RN : room n s).
    { destruct R as [R|[R _]]; auto. exfalso. destruct T as [T _]. rewrite T in R.
      apply starts_one in R. subst k. rewrite R in I. cbn in I. intuition discriminate. }
    assert (RE := proj1 T). cbn in I. destruct I as [<-|[<-|[<-|[]]]].
    + bind ltac:(apply run_identifier; auto). intros [id l] s2 (u & T2 & K2 & Z) X2 O2.
      injection Z as -> ->. eapply run_conseq; [apply IH; auto; try left; rm|].
      intros e' s3 X3 [H3 S3]. split; [|left; rm]. rewrite RE.
      eapply d_call_get; eauto using took_name.
    + unfold finish_call. apply run_bind_assoc. apply run_check_bind; auto; [discriminate| |].
      * intros S1. apply run_bind_assoc. apply run_ret_bind. apply run_bind_assoc.
        bind ltac:(apply run_consume; auto; discriminate).
        intros [] s2 (u & T2 & K2) X2 O2. apply run_ret_bind.
        eapply run_conseq; [apply IH; auto; try left; rm|].
        intros e' s3 X3 [H3 S3]. split; [|left; rm]. rewrite RE.
        eapply d_call_none; eauto using took_then.
      * intros S1. apply run_bind_assoc.
        bind ltac:(apply args_loop_sound; auto; [unfold room, loop_fuel in *; lia|rm]).
        intros es s2 (es' & -> & L & H2 & M2) X2 O2. apply run_bind_assoc.
        bind ltac:(apply run_consume; auto; discriminate).
        intros [] s3 (u & T3 & K3) X3 O3. apply run_ret_bind.
        eapply run_conseq; [apply IH; auto; try left; rm|].
        intros e' s4 X4 [H4 S4]. split; [|left; rm]. rewrite RE.
        eapply d_call_paren; eauto using took_then.
    + unfold finish_get_index. apply run_bind_assoc. bind ltac:(apply HE; auto; rm).
      intros e1 s2 [H2 M2] X2 O2. apply run_bind_assoc.
      bind ltac:(apply run_consume; auto; discriminate).
      intros [] s3 (u & T3 & K3) X3 O3. apply run_ret_bind.
      eapply run_conseq; [apply IH; auto; try left; rm|].
      intros e' s4 X4 [H4 S4]. split; [|left; rm]. rewrite RE.
      eapply d_call_index; eauto using took_then.
  - destruct H as [-> N]. apply run_get_bind.
    destruct (check_any_of_st toks CALL_PRIMARY_TOKENS s) eqn:C.
    + apply (check_any_iff toks) in C; [|apply O|cbn; intuition discriminate].
      destruct (valid_rest toks s (proj1 O)) as (t & i & E).
      assert (RN : room n s).
      { destruct R as [R|[R _]]; auto. exfalso. rewrite E in R, C.
        apply starts_one in R. cbn in C. rewrite R in C. intuition discriminate. }
      assert (PL : peek_source_loc toks oc s = POk (tloc t) s).
      { unfold peek_source_loc, pbind, gets. now rewrite rest_nth, E. }
      assert (LB : forall f0, run b (f0 (tloc t)) s (fun e' s' => D b (CallTail e) s (VE e') s' /\ stayed s s') ->
        run b (pbind (peek_source_loc toks oc) f0) s (fun e' s' => D b (CallTail e) s (VE e') s' /\ stayed s s')).
      { intros f0 Hf. unfold ParseRun.run, pbind at 1. now rewrite PL. }
      apply LB. clear LB PL. unfold finish_call_without_parens. apply run_bind_assoc.
      bind ltac:(apply args_loop_sound; auto; unfold room, loop_fuel in *; lia).
      intros es s2 (es' & -> & L & H2 & M2) X2 O2. apply run_ret_bind.
      assert (CC : cur s < cur s2).
      { destruct M2 as [M2|[_ M2]]; auto. exfalso. rewrite E in M2, C. apply starts_one in M2.
        cbn in C. rewrite M2 in C. intuition discriminate. }
      eapply run_conseq; [apply IH; auto; try left; rm|].
      intros e' s4 X4 [H4 S4]. split; [|left; rm]. rewrite E in *.
      eapply d_call_juxtaposed; eauto.
    + apply run_ret; auto. split; [|now right]. apply d_call_end.
      intros S1. assert (~ starts CALL_PRIMARY_TOKENS (rest s)).
      { rewrite <- (check_any_iff toks) by (try apply O; cbn; intuition discriminate). congruence. }
      destruct (rest s) as [|t i]; [contradiction|]. cbn in *. intuition.
Qed.
Lemma call_sound : forall b s, okay b s -> room (S n) s ->
  run b (call toks oc er dr) s (fun e s' => D b Call s (VE e) s' /\ moved s s').
Proof.
  intros b s O R. unfold call. bind ltac:(apply primary_sound; auto).
  intros e s1 [H1 M1] X1 O1. eapply run_conseq; [apply call_loop_sound; auto|].
  - unfold room, loop_fuel. lia.
  - destruct M1 as [M1|[-> M1]]; [left; rm|right; split; auto; unfold loop_fuel; lia].
  - intros e' s2 X2 [H2 S2]. split; [eapply d_call; eauto|eapply moved_stayed; eauto].
Qed.
Lemma unary_sound : forall b fuel s, okay b s -> room fuel s -> room (S n) s ->
  run b (unary_fuel toks oc er dr fuel) s (fun e s' => D b Unary s (VE e) s' /\ moved s s').
Proof.
  induction fuel as [|f IH]; intros s O F R.
  { exfalso. destruct O as [[V _] _]. unfold room in F. lia. }
  cbn [unary_fuel]. bind ltac:(apply run_matches; auto; cbn; intuition discriminate).
  intros [[k l]|] s1 H X1 O1.
  - destruct H as (t & T & K & -> & I). bind ltac:(apply IH; auto; rm).
    intros e s2 [H2 M2] X2 O2. assert (RE := proj1 T).
    cbn in I. destruct I as [<-|[<-|[]]]; (apply run_ret; auto; split; [|left; rm]);
      rewrite RE; apply d_unary; auto; now rewrite K.
  - destruct H as [-> N]. eapply run_conseq; [apply call_sound; auto|].
    intros e s2 X2 [H2 M2]. split; auto. now apply d_unary_call.
Qed.

Lemma tail_sound : forall lv ks next loop, tail_shape toks lv ks next loop ->
  (forall b s, okay b s -> room (S n) s ->
    run b next s (fun e s' => D b (Binary (S lv)) s (VE e) s' /\ moved s s')) ->
  forall b fuel e s, okay b s -> room fuel s -> room (S n) s ->
  run b (loop fuel e) s (fun e' s' => D b (BinaryTail lv e) s (VE e') s' /\ stayed s s').
Proof.
  intros lv ks next loop [SR SO] HN b. induction fuel as [|f IH]; intros e s O F R.
  { exfalso. destruct O as [[V _] _]. unfold room in F. lia. }
  unfold ParseRun.run. rewrite SR. change (run b (tail_body toks lv ks next (loop f) e) s
    (fun e' s' => D b (BinaryTail lv e) s (VE e') s' /\ stayed s s')).
  assert (NE : ~ In Eof ks). { rewrite SO. destruct lv as [|[|[|[|[|[|lv]]]]]]; cbn; auto. }
  unfold tail_body. bind ltac:(apply run_matches; auto).
  intros [[k l]|] s1 H X1 O1.
  - destruct H as (t & T & K & -> & I). bind ltac:(apply HN; auto; rm).
    intros e2 s2 [H2 M2] X2 O2. apply SO in I. destruct (operator lv k) as [g|] eqn:G; [|congruence].
    eapply run_conseq; [apply IH; auto; rm|]. intros e' s3 X3 [H3 S3]. split; [|left; rm].
    rewrite (proj1 T). eapply d_tail_more; eauto. now rewrite K.
  - destruct H as [-> N]. apply run_ret; auto. split; [|now right]. apply d_tail_end.
    destruct (rest s) as [|t i]; cbn; auto. cbn in N. rewrite SO in N.
    destruct (operator lv (t_type t)); auto. exfalso. apply N. discriminate.
Qed.
Lemma binary_sound : forall lv ks next loop, tail_shape toks lv ks next loop -> lv < top_level ->
  (forall b s, okay b s -> room (S n) s ->
    run b next s (fun e s' => D b (Binary (S lv)) s (VE e) s' /\ moved s s')) ->
  forall b s, okay b s -> room (S n) s ->
  run b (plet e <- next ;; loop (loop_fuel toks) e) s (fun e s' =>
    D b (Binary lv) s (VE e) s' /\ moved s s').
Proof.
  intros lv ks next loop SH L HN b s O R. bind ltac:(apply HN; auto).
  intros e s1 [H1 M1] X1 O1. eapply run_conseq; [eapply tail_sound; eauto|].
  - unfold room, loop_fuel. lia.
  - rm.
  - intros e' s2 X2 [H2 S2]. split; [eapply d_binary; eauto|eapply moved_stayed; eauto].
Qed.
Lemma or_sound : forall b s, okay b s -> room (S n) s ->
  run b (or_ toks oc er dr) s (fun e s' => D b (Binary 0) s (VE e) s' /\ moved s s').
Proof.
  eapply (binary_sound _ _ _ _ (or_shape toks oc er dr)); [unfold top_level; lia|].
  eapply (binary_sound _ _ _ _ (and_shape toks oc er dr)); [unfold top_level; lia|].
  eapply (binary_sound _ _ _ _ (eq_shape toks oc er dr)); [unfold top_level; lia|].
  eapply (binary_sound _ _ _ _ (cmp_shape toks oc er dr)); [unfold top_level; lia|].
  eapply (binary_sound _ _ _ _ (add_shape toks oc er dr)); [unfold top_level; lia|].
  eapply (binary_sound _ _ _ _ (mult_shape toks oc er dr)); [unfold top_level; lia|].
  intros b s O R. eapply run_conseq; [apply unary_sound; auto; unfold room, loop_fuel; lia|].
  intros e s' X [H M]. split; auto. now apply d_binary_top.
Qed.

(** ** Assignments *)
Lemma assign_target_sound : forall b s0 s1 s t i e e2, ext toks b s0 s1 -> ext toks b s1 s ->
  rest s1 = t :: i -> cur s1 < cur s -> t_type t = Equal -> okay b s ->
  runf toks b s0 (assign_target e e2 (tloc t)) s (fun e' s' =>
    s' = s /\ assigned e e2 (tloc t) = Some e').
Proof.
  intros b s0 s1 s t i e e2 X1 X2 E C K O.
  assert (BAD : runf toks b s0 (pfail (cause_at (tloc t) "=" "Invalid assignment target.")) s
    (fun e' s' => s' = s /\ assigned e e2 (tloc t) = Some e')).
  { eapply runf_fail; eauto. split; cbn; auto. }
  destruct e; cbn [assign_target assigned]; try exact BAD;
    try (apply runf_run; [eapply ext_trans; eauto | apply run_ret; auto]; fail).
  match goal with |- context [String.eqb ?x "this"] => destruct (String.eqb x "this") end; [exact BAD|].
  apply runf_run; [eapply ext_trans; eauto | apply run_ret; auto].
Qed.
Lemma target_sound : forall b s, okay b s -> room (S n) s ->
  run b (plet indented <- match_token toks Indent ;;
    (if indented then
       plet e <- or_ toks oc er dr ;;
       pdo match_token toks Terminator ;;
       pdo consume toks oc Outdent "Expect outdent after indented expression." ;;
       pret e
     else or_ toks oc er dr)) s (fun e s' => D b Target s (VE e) s' /\ moved s s').
Proof.
  intros b s O R. bind ltac:(apply run_match_token; auto; discriminate).
  intros [|] s1 H X1 O1.
  - destruct H as (t & T & K). bind ltac:(apply or_sound; auto; rm).
    intros e s2 [H2 M2] X2 O2. bind ltac:(apply run_match_token; auto; discriminate).
    intros m s3 H3 X3 O3. bind ltac:(apply run_consume; auto; discriminate).
    intros [] s4 (u & T4 & K4) X4 O4. apply run_ret; auto. split; [|left; rm].
    eapply d_target_indented; [eapply took_then; eauto|eauto| |eapply took_then; eauto].
    destruct m.
    + destruct H3 as (w & T3 & K3). rewrite (proj1 T3). now constructor.
    + destruct H3 as [-> N]. now apply opt_none.
  - destruct H as [-> N]. eapply run_conseq; [apply or_sound; auto|].
    intros e s2 X2 [H2 M2]. split; auto. now apply d_target.
Qed.
Lemma expression_sound : forall b s, okay b s -> room (S n) s ->
  run b (expression toks oc er dr) s (fun e s' => D b Expression s (VE e) s' /\ moved s s').
Proof.
  intros b s O R. unfold expression, assignment.
  match goal with |- run b (pbind ?m (fun indented => pbind (@?f indented) ?g)) s ?Q =>
    assert (H : run b (pbind (pbind m f) g) s Q -> run b (pbind m (fun indented => pbind (f indented) g)) s Q) end.
  { unfold ParseRun.run, pbind. destruct (match_token toks Indent s); auto. }
  apply H. clear H. apply runf_start.
  eapply runf_bind; [now apply ext_refl|apply target_sound; auto|].
  intros e s1 [H1 M1] X1 O1 _. eapply runf_bind; [auto|apply run_matches; auto; cbn; intuition discriminate|].
  intros [[k l]|] s2 H2 X2 O2 X02.
  - destruct H2 as (t & T & K & -> & I). destruct I as [<-|[]].
    eapply runf_bind; [auto|apply HE; auto; rm|]. intros e2 s3 [H3 M3] X3 O3 X03.
    assert (A := assign_target_sound b s s1 s3 t (rest s2) e e2 X1 (ext_trans _ _ _ _ _ X2 X3) (proj1 T)).
    specialize (A ltac:(rm) K O3). unfold ParseRun.runf in *.
    destruct (assign_target e e2 (tloc t) s3); auto. destruct A as (X4 & -> & AS).
    split; auto. split; [|left; rm]. eapply d_assignment; eauto. rewrite <- (proj1 T). auto.
  - destruct H2 as [-> N]. apply runf_run; auto. apply run_ret; auto. split; auto.
    now apply d_expression.
Qed.

(** ** Statements *)
Lemma moved_end : forall s s', moved s s' -> starts [Eof] (rest s') -> cur s < cur s'.
Proof.
  intros s s' [M|[-> M]] E; auto. exfalso. destruct (rest s) as [|t i]; [contradiction|].
  apply starts_one in M, E. congruence.
Qed.
Lemma expression_statement_sound : forall b s, okay b s -> room (S n) s ->
  run b (expression_statement toks trailing oc er dr) s (fun st s' =>
    D b ExpressionStatement s (VS st) s' /\ cur s < cur s').
Proof.
  intros b s O R. unfold expression_statement. bind ltac:(apply expression_sound; auto).
  intros e s1 [H1 M1] X1 O1. apply run_get_bind.
  destruct (negb (trailing && is_at_end toks s1) || check_st toks Terminator s1) eqn:C.
  - bind ltac:(apply run_consume; auto; discriminate). intros [] s2 (t & T & K) X2 O2.
    apply run_ret; auto. split; [eapply d_expression_line; eauto using took_then|rm].
  - apply run_ret_bind. apply run_ret; auto. apply orb_false_iff in C. destruct C as [C _].
    apply negb_false_iff, andb_true_iff in C. destruct C as [C1 C2].
    apply at_end_iff in C2; [|apply O1]. split; [now apply d_expression_trailing|].
    now apply moved_end.
Qed.
Lemma var_declaration_sound : forall b (fi : bool) s, okay b s -> room (S n) s ->
  run b (finish_var_declaration toks oc er dr fi) s (fun st s' =>
    D b (VarDeclaration fi) s (VS st) s' /\ cur s < cur s').
Proof.
  intros b fi s O R. unfold finish_var_declaration. bind ltac:(apply run_identifier; auto).
  intros [id l] s1 (t & T & K & Z) X1 O1. injection Z as -> ->.
  bind ltac:(apply run_matches; auto; cbn; intuition discriminate).
  intros [[k l]|] s2 H2 X2 O2.
  - destruct H2 as (u & T2 & K2 & -> & [<-|[]]).
    apply run_bind_assoc. bind ltac:(apply run_match_token; auto; discriminate).
    intros m s3 H3 X3 O3.
    assert (OP : optional Terminator (rest s2) (rest s3)).
    { destruct m; [destruct H3 as (w & [-> _] & ?); now constructor|].
      destruct H3 as [-> ?]. now apply opt_none. }
    clear H3. apply run_bind_assoc, run_get_bind, run_bind_assoc.
    bind ltac:(apply expression_sound; auto; rm). intros e s4 [H4 M4] X4 O4. apply run_ret_bind.
    assert (ND : negb (check_st toks Indent s3) && negb (check_st toks LeftBrace s3) = false ->
      starts [Indent; LeftBrace] (rest s3)).
    { intros Z. apply andb_false_iff in Z. destruct (valid_rest toks s3 (proj1 O3)) as (w & i & E).
      destruct Z as [Z|Z]; apply negb_false_iff, (check_iff toks) in Z; try apply O3; try discriminate;
        rewrite E in *; apply starts_one in Z; cbn; auto. }
    destruct fi.
    + bind ltac:(apply run_consume; auto; discriminate). intros [] s5 (w & T5 & K5) X5 O5.
      apply run_ret; auto. split; [|rm].
      eapply d_var_init; eauto using took_name, took_then; cbn; eauto using took_then.
    + destruct (negb (check_st toks Indent s3) && negb (check_st toks LeftBrace s3)) eqn:Z.
      * bind ltac:(apply run_consume; auto; discriminate). intros [] s5 (w & T5 & K5) X5 O5.
        apply run_ret; auto. split; [|rm].
        eapply d_var_init; eauto using took_name, took_then; cbn; eauto using took_then.
      * apply run_bind_assoc. bind ltac:(apply run_match_token; auto; discriminate).
        intros m' s5 H5 X5 O5. apply run_ret_bind. apply run_ret; auto. split; [|rm].
        eapply d_var_init; eauto using took_name, took_then. cbn.
        destruct m'; [destruct H5 as (w & T5 & K5); eauto using took_then|].
        destruct H5 as [-> N]. right. auto.
  - destruct H2 as [-> N]. apply run_ret_bind.
    assert (W : run b (if fi then consume toks oc Semicolon "Expect ';' after var declaration."
       else consume toks oc Terminator "Expect newline after var declaration.") s1 (fun _ s3 =>
       exists u, took u s1 s3 /\ t_type u = if fi then Semicolon else Terminator)).
    { destruct fi; apply run_consume; auto; discriminate. }
    bind ltac:(exact W). intros [] s3 (u & T3 & K3) X3 O3. apply run_ret; auto. split; [|rm].
    eapply d_var_none; eauto using took_name, took_then.
Qed.
Lemma fun_declaration_sound : forall b s, okay b s -> room (S n) s ->
  run b (finish_fun_declaration toks oc dr) s (fun f s' =>
    exists t s1 d, name_then t (rest s) (rest s1) /\ cur s < cur s' /\
      f = NamedFun (t_lexeme t) d /\ D b (Function (tloc t)) s1 (VF d) s').
Proof.
  intros b s O R. unfold finish_fun_declaration. bind ltac:(apply run_identifier; auto).
  intros [id l] s1 (t & T & K & Z) X1 O1. injection Z as -> ->.
  bind ltac:(apply function_sound; auto; rm). intros d s2 [H2 C2] X2 O2. apply run_ret; auto.
  exists t, s1, d. split; [eauto using took_name|]. split; [rm|]. auto.
Qed.
Lemma method_loop_sound : forall b k fuel acc s, okay b s -> k <> Eof -> room fuel s -> room (S n) s ->
  run b (method_loop toks oc dr fuel k acc) s (fun l s' =>
    exists l', l = acc ++ l' /\
      forall r, token_then k (rest s') r -> derives trailing b (Methods k) (rest s) (VMs l') r).
Proof.
  induction fuel as [|f IH]; intros acc s O K F R.
  { exfalso. destruct O as [[V _] _]. unfold room in F. lia. }
  cbn [method_loop]. apply run_get_bind.
  destruct (negb (negb (check_st toks k s) && negb (is_at_end toks s))) eqn:E.
  - apply run_ret; auto. exists nil. rewrite app_nil_r. split; auto.
    intros r T. now apply d_methods_end.
  - bind ltac:(apply run_match_token; auto; discriminate). intros c s1 H1 X1 O1.
    bind ltac:(apply fun_declaration_sound; auto; rm).
    intros nf s2 (t & s1' & d & N & C2 & -> & H2) X2 O2. cbn [fun_name].
    eapply run_conseq; [apply IH; auto; rm|]. intros l s3 X3 (l' & -> & Q).
    eexists. rewrite <- app_assoc. split; [reflexivity|]. intros r T. destruct d as [ps bd ft l0].
    destruct c.
    + destruct H1 as (u & T1 & K1).
      eapply (d_methods_class _ _ _ _ _ _ _ (FunDef ps bd ft l0)); eauto using took_then.
    + destruct H1 as [-> N1]. eapply (d_methods_more _ _ _ _ _ _ (FunDef ps bd ft l0)); eauto.
Qed.
Lemma class_sound : forall b s s0, okay b s -> room (S n) s -> token_then Class (rest s0) (rest s) ->
  run b (finish_class_declaration toks oc dr) s (fun st s' =>
    D b Declaration s0 (VS st) s' /\ cur s < cur s').
Proof.
  intros b s s0 O R T0. unfold finish_class_declaration. bind ltac:(apply run_identifier; auto).
  intros [id l] s1 (t & T & K & Z) X1 O1. injection Z as -> ->.
  bind ltac:(apply run_match_token; auto; discriminate). intros c s2 H2 X2 O2.
  assert (TAIL : forall sup s3, okay b s3 -> ext toks b s s3 -> cur s < cur s3 ->
    (forall k i3 ms r, opens k (rest s3) i3 -> derives trailing b (Methods k) i3 (VMs ms) r ->
      derives trailing b Declaration (rest s0)
        (VS (SClass (ClassDef (t_lexeme t) sup ms (tloc t)))) r) ->
    run b (plet end_block <- consume_begin_block toks oc "Expect '{' or indent after class name." ;;
      plet methods <- method_loop toks oc dr (loop_fuel toks) end_block nil ;;
      pdo consume_end_block toks oc end_block " after class method body." ;;
      pret (SClass (ClassDef (t_lexeme t) sup methods (tloc t)))) s3 (fun st s' =>
      D b Declaration s0 (VS st) s' /\ cur s < cur s')).
  { intros sup s3 O3 X3 C3 HB. bind ltac:(apply run_begin_block; auto).
    intros k s4 (Op & C4 & KK) X4 O4. assert (k <> Eof) by (destruct KK; subst; discriminate).
    bind ltac:(apply method_loop_sound; auto; unfold room, loop_fuel in *; cx; lia).
    intros ms s5 (ms' & -> & Q) X5 O5. bind ltac:(apply run_end_block; auto).
    intros [] s6 (T6 & C6) X6 O6. apply run_ret; auto. split; [|rm]. eapply HB; eauto. }
  destruct c.
  - destruct H2 as (u & T2 & K2). apply run_bind_assoc. bind ltac:(apply run_identifier; auto).
    intros [sid sl] s3 (w & T3 & K3 & Z) X3 O3. injection Z as -> ->. apply run_ret_bind.
    apply TAIL; auto.
    + eapply ext_trans; [eapply ext_trans; eauto|eauto].
    + rm.
    + intros k i3 ms r Op H. eapply d_subclass; eauto using took_name, took_then.
  - destruct H2 as [-> N2]. apply run_ret_bind. apply TAIL; auto.
    + rm.
    + intros k i3 ms r Op H. eapply d_class; eauto using took_name.
Qed.

Lemma block_check : forall s, valid toks s ->
  (check_st toks Terminator s || check_st toks LeftBrace s = false -> ~ starts [LeftBrace] (rest s)).
Proof.
  intros s V E. apply orb_false_iff in E. destruct E as [_ E].
  rewrite <- (check_iff toks) by (auto; discriminate). congruence.
Qed.
(** A branch of [if]. *)
Lemma branch_sound : forall b msg s, okay b s -> room n s ->
  run b (plet block <- gets (fun s => check_st toks Terminator s || check_st toks LeftBrace s) ;;
    if (block : bool) then
       plet end_block <- consume_begin_block toks oc msg ;;
       plet b <- finish_block toks oc dr end_block ;; pret (SBlock b)
     else sr) s (fun st s' => D b Branch s (VS st) s' /\ cur s < cur s').
Proof.
  intros b msg s O R. apply run_get_bind.
  destruct (check_st toks Terminator s || check_st toks LeftBrace s) eqn:C.
  - bind ltac:(apply run_begin_block; auto). intros k s1 (Op & C1 & K) X1 O1.
    bind ltac:(apply finish_block_sound; auto; rm). intros l s2 [H2 C2] X2 O2.
    apply run_ret; auto. split; [|lia]. apply d_branch_block. eapply d_block; eauto.
  - eapply run_conseq; [apply HS; auto|]. intros st s1 X1 [H1 C1]. split; auto.
    apply d_branch_statement; auto. eapply block_check; eauto. apply O.
Qed.
(** The body of a loop. *)
Lemma loop_body_sound : forall b s, okay b s -> room n s ->
  run b (loop_body_statement toks oc sr dr) s (fun st s' =>
    D true Branch s (VS st) s' /\ cur s < cur s').
Proof.
  intros b s O R. set (s1 := mkP (cur s) (S (loops s))).
  assert (RE : rest s1 = rest s) by reflexivity.
  assert (O1 : okay true s1) by (split; [exact (proj1 O)|reflexivity]).
  assert (LIFT : forall s2 s3, ext toks true s1 s2 -> decr_loops_st s2 = Some s3 ->
    ext toks b s s3 /\ rest s3 = rest s2 /\ cur s3 = cur s2).
  { intros s2 s3 (V & _ & C & L) E. unfold decr_loops_st in E. rewrite L in E. cbn in E.
    injection E as <-. split; [|split; reflexivity]. split; [exact V|]. split; [apply O|].
    split; [exact C|reflexivity]. }
  assert (LIFTB : forall c s2, bad toks s1 c s2 -> bad toks s c s2 /\
    exists s3, decr_loops_st s2 = Some s3 /\ bad toks s c s3).
  { intros c s2 (V & C & L & j & t & N & CN & J). cbn in C, L.
    split.
    - split; auto. split; auto. split; [lia|]. eauto 8.
    - unfold decr_loops_st. destruct (loops s2) as [|m] eqn:Z; [lia|]. eexists. split; [reflexivity|].
      split; [exact V|]. split; auto. split; [cbn; lia|]. exists j, t. auto. }
  assert (FIN : forall (body : P stmt) s2, ext toks true s1 s2 ->
    runf toks true s1 body s2 (fun st s' => D true Branch s1 (VS st) s' /\ cur s1 < cur s') ->
    match (match body s2 with
           | POk b s1 => match decr_loops_st s1 with
                         | Some s2 => POk b s2
                         | None => PPanic "attempt to subtract with overflow"
                         end
           | PErr c s1 => match decr_loops_st s1 with
                          | Some s2 => PErr c s2
                          | None => PPanic "attempt to subtract with overflow"
                          end
           | PPanic w => PPanic w
           | PFuel => PFuel
           end) with
    | POk a s' => ext toks b s s' /\ D true Branch s (VS a) s' /\ cur s < cur s'
    | PErr c s' => bad toks s c s'
    | _ => False end).
  { intros body s2 X2 H. unfold runf in H. destruct (body s2) as [st s3|c s3|w|]; auto.
    - destruct H as [X3 [H C]]. assert (X13 := ext_trans _ _ _ _ _ X2 X3).
      assert (E : exists s4, decr_loops_st s3 = Some s4).
      { unfold decr_loops_st. destruct X13 as (_ & _ & _ & ->). cbn. eauto. }
      destruct E as [s4 E]. rewrite E. destruct (LIFT s3 s4 X13 E) as (A & B & CC).
      split; auto. rewrite B, CC. split; auto.
    - destruct (LIFTB c s3 H) as (_ & s4 & -> & B). auto. }
  unfold ParseRun.run, loop_body_statement, pbind at 1, incr_loops.
  fold s1. unfold pbind at 1, gets.
  destruct (check_st toks Terminator s1 || check_st toks LeftBrace s1) eqn:C.
  - unfold pbind at 1 2.
    assert (BB := run_begin_block toks oc OK true "Expect '{' or indent before loop body." s1 O1).
    unfold ParseRun.run in BB. destruct (consume_begin_block toks oc _ s1) as [k s2|c s2|w|]; auto.
    + destruct BB as (X2 & Op & C2 & K). unfold pret at 1. apply FIN; auto.
      assert (O2 := ext_okay _ _ _ _ X2).
      eapply runf_bind; [exact X2|apply finish_block_sound; auto; unfold room in *; cbn in C2; lia|].
      intros l s3 [H3 C3] X3 O3 X13. apply runf_run; auto. apply run_ret; auto.
      split; [|lia]. apply d_branch_block. eapply d_block; eauto.
    + now apply LIFTB.
  - unfold pbind at 1, pret at 1. apply FIN; [now apply ext_refl|].
    eapply run_conseq; [apply HS; auto|]. intros st s2 X2 [H2 C2]. split; auto.
    apply d_branch_statement; auto. eapply block_check; eauto. apply O1.
Qed.

Lemma paren_sound : forall b msg s, okay b s ->
  run b (consume_any_of toks oc [LeftParen; LeftParenAbutting] msg) s (fun _ s1 =>
    paren_then (rest s) (rest s1) /\ cur s < cur s1).
Proof.
  intros b msg s O. eapply run_conseq; [apply run_consume_any; auto; cbn; intuition discriminate|].
  intros [] s1 X1 (t & T & I). split; [eapply paren_took; eauto|rm].
Qed.
Lemma consume_sound : forall b k msg s, okay b s -> k <> Eof ->
  run b (consume toks oc k msg) s (fun _ s1 => token_then k (rest s) (rest s1) /\ cur s < cur s1).
Proof.
  intros b k msg s O N. eapply run_conseq; [apply run_consume; auto|].
  intros [] s1 X1 (t & T & K). split; [eapply took_then; eauto|rm].
Qed.
Lemma while_sound : forall b s s0, okay b s -> room (S n) s -> token_then While (rest s0) (rest s) ->
  run b (finish_while_statement toks oc er sr dr) s (fun st s' => D b Statement s0 (VS st) s' /\ cur s < cur s').
Proof.
  intros b s s0 O R T0. unfold finish_while_statement. bind ltac:(apply paren_sound; auto).
  intros [] s1 [P1 C1] X1 O1. bind ltac:(apply expression_sound; auto; rm).
  intros c s2 [H2 M2] X2 O2. bind ltac:(apply consume_sound; auto; discriminate).
  intros [] s3 [T3 C3] X3 O3. bind ltac:(apply loop_body_sound; auto; rm).
  intros st s4 [H4 C4] X4 O4. apply run_ret; auto. split; [|rm]. eapply d_while; eauto.
Qed.
Lemma if_sound : forall b s s0, okay b s -> room (S n) s -> token_then If (rest s0) (rest s) ->
  run b (finish_if_statement toks oc er sr dr) s (fun st s' => D b Statement s0 (VS st) s' /\ cur s < cur s').
Proof.
  intros b s s0 O R T0. unfold finish_if_statement. bind ltac:(apply paren_sound; auto).
  intros [] s1 [P1 C1] X1 O1. bind ltac:(apply expression_sound; auto; rm).
  intros c s2 [H2 M2] X2 O2. bind ltac:(apply consume_sound; auto; discriminate).
  intros [] s3 [T3 C3] X3 O3.
  assert (BR := branch_sound b "Expect '{' or indent before if body." s3 O3 ltac:(rm)).
  match goal with |- run b (pbind ?m (fun block => pbind (@?f block) ?g)) ?st ?Q =>
    assert (H : run b (pbind (pbind m f) g) st Q -> run b (pbind m (fun block => pbind (f block) g)) st Q) by auto;
    apply H; clear H end.
  bind ltac:(exact BR). intros st s4 [H4 C4] X4 O4.
  bind ltac:(apply run_match_token; auto; discriminate). intros [|] s5 H5 X5 O5.
  - destruct H5 as (t & T5 & K5). apply run_bind_assoc. bind ltac:(apply HS; auto; rm).
    intros st2 s6 [H6 C6] X6 O6. apply run_ret_bind. apply run_ret; auto. split; [|rm].
    eapply d_if_else; eauto using took_then.
  - destruct H5 as [-> N5]. apply run_ret_bind. apply run_ret; auto. split; [|rm].
    eapply d_if; eauto.
Qed.
Lemma for_init_sound : forall b s, okay b s -> room (S n) s ->
  run b (plet semi <- match_token toks Semicolon ;;
    (if (semi : bool) then pret None
     else
       plet var <- match_token toks Var ;;
       if (var : bool) then plet d <- finish_var_declaration toks oc er dr true ;; pret (Some d)
       else plet d <- expression_statement toks trailing oc er dr ;; pret (Some d))) s
    (fun o s' => D b ForInit s (VO o) s' /\ cur s < cur s').
Proof.
  intros b s O R. bind ltac:(apply run_match_token; auto; discriminate). intros [|] s1 H1 X1 O1.
  - destruct H1 as (t & T & K). apply run_ret; auto. split; [|rm].
    apply d_for_none. eauto using took_then.
  - destruct H1 as [-> N1]. bind ltac:(apply run_match_token; auto; discriminate).
    intros [|] s2 H2 X2 O2.
    + destruct H2 as (t & T & K). bind ltac:(apply var_declaration_sound; auto; rm).
      intros d s3 [H3 C3] X3 O3. apply run_ret; auto. split; [|rm].
      eapply d_for_var; eauto using took_then.
    + destruct H2 as [-> N2]. bind ltac:(apply expression_statement_sound; auto).
      intros d s3 [H3 C3] X3 O3. apply run_ret; auto. split; [|rm].
      eapply d_for_expression; eauto.
Qed.
Lemma for_sound : forall b s s0, okay b s -> room (S n) s -> token_then For (rest s0) (rest s) ->
  run b (finish_for_statement toks trailing oc er sr dr) s (fun st s' =>
    D b Statement s0 (VS st) s' /\ cur s < cur s').
Proof.
  intros b s s0 O R T0. unfold finish_for_statement. bind ltac:(apply paren_sound; auto).
  intros [] s1 [P1 C1] X1 O1.
  assert (FI := for_init_sound b s1 O1 ltac:(rm)).
  match goal with |- run b (pbind ?m (fun semi => pbind (@?f semi) ?g)) ?st ?Q =>
    assert (H : run b (pbind (pbind m f) g) st Q -> run b (pbind m (fun semi => pbind (f semi) g)) st Q);
    [|apply H; clear H] end.
  { unfold ParseRun.run, pbind. destruct (match_token toks Semicolon s1); auto. }
  bind ltac:(exact FI). intros init s2 [H2 C2] X2 O2.
  assert (CO : run b (plet no_cond <- check toks Semicolon ;;
      if (no_cond : bool) then pret (EBool true) else expression toks oc er dr) s2
      (fun c s' => D b Condition s2 (VE c) s' /\ cur s2 <= cur s')).
  { apply run_check_bind; auto; [discriminate| |]; intros S2.
    - apply run_ret; auto. split; [now apply d_condition_none|lia].
    - eapply run_conseq; [apply expression_sound; auto; rm|].
      intros e s3 X3 [H3 M3]. split; [now apply d_condition|rm]. }
  match goal with |- run b (pbind ?m (fun semi => pbind (@?f semi) ?g)) ?st ?Q =>
    assert (H : run b (pbind (pbind m f) g) st Q -> run b (pbind m (fun semi => pbind (f semi) g)) st Q) by auto;
    apply H; clear H end.
  bind ltac:(exact CO). intros c s3 [H3 C3] X3 O3.
  bind ltac:(apply consume_sound; auto; discriminate). intros [] s4 [T4 C4] X4 O4.
  assert (IN : run b (plet no_inc <- check toks RightParen ;;
      if (no_inc : bool) then pret None else plet e <- expression toks oc er dr ;; pret (Some e)) s4
      (fun o s' => D b Increment s4 (VOE o) s' /\ cur s4 <= cur s')).
  { apply run_check_bind; auto; [discriminate| |]; intros S4.
    - apply run_ret; auto. split; [now apply d_increment_none|lia].
    - bind ltac:(apply expression_sound; auto; rm).
      intros e s5 [H5 M5] X5 O5. apply run_ret; auto. split; [now apply d_increment|rm]. }
  match goal with |- run b (pbind ?m (fun semi => pbind (@?f semi) ?g)) ?st ?Q =>
    assert (H : run b (pbind (pbind m f) g) st Q -> run b (pbind m (fun semi => pbind (f semi) g)) st Q) by auto;
    apply H; clear H end.
  bind ltac:(exact IN). intros inc s5 [H5 C5] X5 O5.
  bind ltac:(apply consume_sound; auto; discriminate). intros [] s6 [T6 C6] X6 O6.
  bind ltac:(apply loop_body_sound; auto; rm). intros st s7 [H7 C7] X7 O7.
  assert (FT : forall q, q = for_tree init c inc st -> run b (pret q) s7 (fun st s' =>
    D b Statement s0 (VS st) s' /\ cur s < cur s')).
  { intros q ->. apply run_ret; auto. split; [|rm]. eapply d_for; eauto. }
  destruct init; apply FT; reflexivity.
Qed.
Lemma statement_sound : forall b s, okay b s -> room (S n) s ->
  run b (statement toks trailing oc er sr dr) s (fun st s' => D b Statement s (VS st) s' /\ cur s < cur s').
Proof.
  intros b s O R. unfold statement. apply runf_start.
  eapply runf_bind; [now apply ext_refl|apply run_matches; auto; cbn; intuition discriminate|].
  intros [[k l]|] s1 H1 X1 O1 _.
  2:{ destruct H1 as [-> N]. apply runf_run; auto.
      eapply run_conseq; [apply expression_statement_sound; auto|].
      intros st s2 X2 [H2 C2]. split; auto. apply d_expression_statement; auto.
      intros Z. apply N. destruct (rest s); [contradiction|]. apply starts_one in Z. cbn. auto 10. }
  destruct H1 as (t & T & K & -> & I).
  assert (TT := took_then _ _ _ _ _ T K). assert (CT := proj2 T).
  assert (W : forall m, run b m s1 (fun st s' => D b Statement s (VS st) s' /\ cur s1 < cur s') ->
    runf toks b s m s1 (fun st s' => D b Statement s (VS st) s' /\ cur s < cur s')).
  { intros m H. apply runf_run; auto. eapply run_conseq; [exact H|].
    intros st s2 X2 [H2 C2]. split; auto. lia. }
  assert (RR : room (S n) s1) by rm. assert (RN : room n s1) by rm.
  cbn in I. destruct I as [<-|[<-|[<-|[<-|[<-|[<-|[<-|[<-|[]]]]]]]]].
  - unfold finish_break_statement.
    destruct (loops s1 =? 0) eqn:Z.
    + unfold runf, pbind, gets. rewrite Z. apply (runf_error_last toks oc b stmt s s1); auto. lia.
    + apply W. apply run_get_bind. rewrite Z.
      bind ltac:(apply consume_sound; auto; discriminate). intros [] s2 [T2 C2] X2 O2.
      apply run_ret; auto. split; [|rm]. rewrite (proj1 T).
      assert (B : b = true).
      { destruct O1 as [_ <-]. unfold inside. apply Nat.ltb_lt. apply Nat.eqb_neq in Z. lia. }
      rewrite B. now apply d_break.
  - unfold finish_continue_statement.
    destruct (loops s1 =? 0) eqn:Z.
    + unfold runf, pbind, gets. rewrite Z. apply (runf_error_last toks oc b stmt s s1); auto. lia.
    + apply W. apply run_get_bind. rewrite Z.
      bind ltac:(apply consume_sound; auto; discriminate). intros [] s2 [T2 C2] X2 O2.
      apply run_ret; auto. split; [|rm]. rewrite (proj1 T).
      assert (B : b = true).
      { destruct O1 as [_ <-]. unfold inside. apply Nat.ltb_lt. apply Nat.eqb_neq in Z. lia. }
      rewrite B. now apply d_continue.
  - apply W, for_sound; auto.
  - apply W, if_sound; auto.
  - apply W. bind ltac:(apply finish_block_sound; auto). intros bl s2 [H2 C2] X2 O2.
    apply run_ret; auto. split; auto. eapply d_block_statement; eauto.
  - apply W. unfold finish_print_statement. bind ltac:(apply expression_sound; auto).
    intros e s2 [H2 M2] X2 O2. bind ltac:(apply consume_sound; auto; discriminate).
    intros [] s3 [T3 C3] X3 O3. apply run_ret; auto. split; [|rm]. eapply d_print; eauto.
  - apply W. unfold finish_return_statement. apply run_check_bind; auto; [discriminate| |]; intros S1.
    + apply run_ret_bind. bind ltac:(apply consume_sound; auto; discriminate).
      intros [] s3 [T3 C3] X3 O3. apply run_ret; auto. split; [|rm].
      rewrite (proj1 T). now apply d_return_nil.
    + bind ltac:(apply expression_sound; auto).
      intros e s2 [H2 M2] X2 O2. bind ltac:(apply consume_sound; auto; discriminate).
      intros [] s3 [T3 C3] X3 O3. apply run_ret; auto. split; [|rm].
      rewrite (proj1 T). eapply d_return; eauto.
  - apply W, while_sound; auto.
Qed.
Lemma declaration_sound : forall b s, okay b s -> room (S n) s ->
  run b (declaration toks trailing oc er sr dr) s (fun st s' =>
    D b Declaration s (VS st) s' /\ cur s < cur s').
Proof.
  intros b s O R. unfold declaration. bind ltac:(apply run_match_token; auto; discriminate).
  intros [|] s1 H1 X1 O1.
  - destruct H1 as (t & T & K). eapply run_conseq; [apply (class_sound b s1 s); auto; [rm|]|].
    + eauto using took_then.
    + intros st s2 X2 [H2 C2]. split; auto. rm.
  - destruct H1 as [-> N1]. apply run_get_bind.
    destruct (check_st toks Fun s && check_next_st toks Identifier s) eqn:C.
    + bind ltac:(apply consume_sound; auto; discriminate). intros [] s2 [T2 C2] X2 O2.
      bind ltac:(apply fun_declaration_sound; auto; rm).
      intros f s3 (t & s2' & d & N & C3 & -> & H3) X3 O3. apply run_ret; auto.
      split; [|rm]. eapply d_fun; eauto.
    + bind ltac:(apply run_match_token; auto; discriminate). intros [|] s2 H2 X2 O2.
      * destruct H2 as (t & T & K). eapply run_conseq; [apply var_declaration_sound; auto; rm|].
        intros st s3 X3 [H3 C3]. split; [|rm]. eapply d_var; eauto using took_then.
      * destruct H2 as [-> N2]. eapply run_conseq; [apply statement_sound; auto|].
        intros st s3 X3 [H3 C3]. split; auto. now apply d_statement.
Qed.
End Level.

(** ** The knot *)
Lemma level_sound : forall n,
  (forall b s, okay b s -> room n s ->
    run b (k_expr (level toks trailing oc n)) s (fun e s' => D b Expression s (VE e) s' /\ moved s s')) /\
  (forall b s, okay b s -> room n s ->
    run b (k_stmt (level toks trailing oc n)) s (fun st s' => D b Statement s (VS st) s' /\ cur s < cur s')) /\
  (forall b s, okay b s -> room n s ->
    run b (k_decl (level toks trailing oc n)) s (fun st s' => D b Declaration s (VS st) s' /\ cur s < cur s')).
Proof.
  induction n as [|n (IE & IS & ID)].
  - repeat split; intros b s [[V _] _] R; unfold room in R; exfalso; lia.
  - cbn [level k_expr k_stmt k_decl]. repeat split; intros b s O R.
    + eapply expression_sound; eauto.
    + eapply statement_sound; eauto.
    + eapply declaration_sound; eauto.
Qed.
End Sound.
