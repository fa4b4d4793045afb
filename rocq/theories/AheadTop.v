(** The rounds of the top level look no more than two tokens ahead. *)
From Verif Require Import Base F64 Token Ast Scanner Parser Progress ApiTop SpecAhead Ahead.
From Coq Require Import Lia.

Lemma first_same (X S1 S2 : list token) : forall i, i <= length X -> i <= first_eof (X ++ S1) -> i <= first_eof (X ++ S2).
Proof.
  induction X as [|t r IH]; cbn; intros i L F; [lia|]. destruct (tt_eqb (t_type t) Eof); [lia|].
  destruct i as [|i]; [lia|]. apply le_n_S. apply IH; lia.
Qed.

Section Top.
Variables X S1 S2 : list token.
Variables trailing oc : bool.
Notation t1 := (X ++ S1).
Notation t2 := (X ++ S2).

Lemma never_fuel toks s : within toks s -> expression_at toks trailing oc s <> PFuel /\ declaration_at toks trailing oc s <> PFuel.
Proof.
  intros W. destruct (pr_level toks trailing oc (first_eof toks) (first_before toks) (first_here toks) (nesting_fuel toks)) as (E & _ & D).
  pose proof (nesting_enough toks (first_eof toks) (first_before toks) (first_here toks) s W) as N.
  specialize (E s W N). specialize (D s W N). unfold expression_at, declaration_at.
  split; intros Q; [rewrite Q in E|rewrite Q in D]; auto.
Qed.
Lemma stays toks s s1 : within toks s -> left_at (declaration_at toks trailing oc s) = Some s1 -> cur s <= cur s1 /\ within toks s1.
Proof.
  intros W Q. destruct (pr_level toks trailing oc (first_eof toks) (first_before toks) (first_here toks) (nesting_fuel toks)) as (_ & _ & D).
  specialize (D s W (nesting_enough toks (first_eof toks) (first_before toks) (first_here toks) s W)).
  unfold declaration_at, left_at in Q. unfold within.
  destruct (k_decl _ s); inversion Q; subst; lia.
Qed.

Theorem expression_ahead s s1 : within t2 s -> left_at (expression_at t1 trailing oc s) = Some s1 -> cur s1 + 2 < length X ->
  expression_at t2 trailing oc s = expression_at t1 trailing oc s.
Proof.
  intros W Q L. destruct (never_fuel t2 s W) as [N _].
  destruct (sim_level X S1 S2 (S (cur s1)) trailing oc ltac:(lia) (nesting_fuel t1) (nesting_fuel t2)) as (E & _ & _).
  specialize (E s). unfold expression_at in *. destruct (k_expr (level t1 _ _ _) s) as [a u|c u|w|]; try discriminate;
    injection Q as ->; destruct E as [_ E]; destruct E as [E|E]; try lia; congruence.
Qed.
Theorem declaration_ahead s s1 : within t2 s -> left_at (declaration_at t1 trailing oc s) = Some s1 -> cur s1 + 2 < length X ->
  declaration_at t2 trailing oc s = declaration_at t1 trailing oc s.
Proof.
  intros W Q L. destruct (never_fuel t2 s W) as [_ N].
  destruct (sim_level X S1 S2 (S (cur s1)) trailing oc ltac:(lia) (nesting_fuel t1) (nesting_fuel t2)) as (_ & _ & E).
  specialize (E s). unfold declaration_at in *. destruct (k_decl (level t1 _ _ _) s) as [a u|c u|w|]; try discriminate;
    injection Q as ->; destruct E as [_ E]; destruct E as [E|E]; try lia; congruence.
Qed.

(** ** Synchronising *)
Lemma sync_sim p n : p + 2 <= length X -> forall n', sim p (synchronize_loop t1 oc n) (synchronize_loop t2 oc n').
Proof.
  intros Lp. induction n as [|n IH]; intros n' s.
  - cbn [synchronize_loop]. destruct (is_at_end t1 s) eqn:Q; auto. split; auto. intros C.
    rewrite (end_same X S1 S2 p Lp s C) in Q. destruct n'; cbn [synchronize_loop]; rewrite Q; auto.
  - cbn [synchronize_loop]. destruct (is_at_end t1 s) eqn:Q.
    + split; auto. intros C. rewrite (end_same X S1 S2 p Lp s C) in Q. destruct n'; cbn [synchronize_loop]; rewrite Q; auto.
    + pose proof (sim_advance X S1 S2 p Lp) as A. pose proof (sim_previous X S1 S2 p oc Lp) as B.
      destruct n' as [|n'].
      * assert (M : mono (plet o <- previous t1 oc ;;
          let stop := match o with Some t => is_sync_type (t_type t) | None => false end in
          if stop then pret tt else pdo advance t1 ;; synchronize_loop t1 oc n)).
        { apply mono_bind; [eapply sim_mono; eassumption|]. intros o. cbv zeta.
          destruct (match o with Some t => _ | None => _ end); [apply mono_ret|].
          apply mono_bind; [eapply sim_mono; eassumption|]. intros _. exact (sim_mono _ _ _ (IH 0)). }
        specialize (M s). cbv zeta in M. cbn [synchronize_loop].
        destruct (pbind _ _ s); auto; (split; [exact M|]; intros C; assert (C0 : cur s < p) by lia;
          rewrite (end_same X S1 S2 p Lp s C0) in Q; rewrite Q; auto).
      * assert (Z : sim p (plet o <- previous t1 oc ;;
          let stop := match o with Some t => is_sync_type (t_type t) | None => false end in
          if stop then pret tt else pdo advance t1 ;; synchronize_loop t1 oc n)
          (plet o <- previous t2 oc ;;
          let stop := match o with Some t => is_sync_type (t_type t) | None => false end in
          if stop then pret tt else pdo advance t2 ;; synchronize_loop t2 oc n')).
        { apply sim_bind; [exact B|]. intros o. cbv zeta.
          destruct (match o with Some t => _ | None => _ end); [apply sim_ret|].
          apply sim_bind; [exact A|]. intros _. apply IH. }
        specialize (Z s). cbv zeta in Z. cbn [synchronize_loop].
        destruct (pbind _ _ s); auto; destruct Z as [M Z]; (split; [exact M|]; intros C; assert (C0 : cur s < p) by lia;
          rewrite (end_same X S1 S2 p Lp s C0) in Q; rewrite Q; exact (Z C)).
Qed.
Lemma sync_ahead s s2 : within t2 s -> synchronize t1 oc s = POk tt s2 -> cur s2 + 2 < length X ->
  synchronize t2 oc s = POk tt s2.
Proof.
  intros W Q L. pose proof (sync_goes t2 oc (first_eof t2) (first_before t2) (first_here t2) s W) as G.
  assert (Lp : S (cur s2) + 2 <= length X) by lia.
  assert (H : sim (S (cur s2)) (synchronize t1 oc) (synchronize t2 oc)).
  { unfold synchronize. apply sim_bind; [now apply sim_advance|]. intros _. now apply sync_sim. }
  specialize (H s). rewrite Q in H. destruct H as [_ H]. destruct H as [H|H]; [lia|exact H|]. rewrite H in G. destruct G.
Qed.
Lemma sync_grows toks s s2 : within toks s -> synchronize toks oc s = POk tt s2 -> cur s <= cur s2 /\ within toks s2.
Proof.
  intros W Q. pose proof (sync_goes toks oc (first_eof toks) (first_before toks) (first_here toks) s W) as G. rewrite Q in G.
  unfold within in *. lia.
Qed.
Lemma round_grows toks s i s1 : within toks s -> one_round toks trailing oc s = Some (i, s1) -> cur s <= cur s1 /\ within toks s1.
Proof.
  intros W Q. pose proof (stays toks s) as H. unfold one_round in Q. unfold declaration_at in H.
  destruct (k_decl _ s) as [d u|c u|w|]; try discriminate; destruct (H u W eq_refl) as [A B].
  - injection Q as <- <-. auto.
  - destruct (synchronize toks oc u) as [x v| | |] eqn:Y; try discriminate. injection Q as <- <-. destruct x.
    destruct (sync_grows toks u v B Y). split; auto. lia.
Qed.
Lemma rounds_grow toks s l s1 : rounds toks trailing oc s l s1 -> within toks s -> cur s <= cur s1 /\ within toks s1.
Proof.
  induction 1 as [|s i s1 l s2 E O R IH]; auto. intros W. destruct (round_grows _ _ _ _ W O) as [A B].
  destruct (IH B). split; auto. lia.
Qed.
Lemma round_ahead s i s1 : within t1 s -> one_round t1 trailing oc s = Some (i, s1) -> cur s1 + 2 < length X ->
  one_round t2 trailing oc s = Some (i, s1).
Proof.
  intros W Q L. destruct (round_grows _ _ _ _ W Q) as [G _].
  assert (W2 : within t2 s) by (unfold within in *; apply (first_same X S1 S2); lia).
  unfold one_round in *. pose proof (stays t1 s) as St. pose proof (declaration_ahead s) as H. unfold declaration_at in *.
  destruct (k_decl (level t1 _ _ _) s) as [d u|c u|w|]; try discriminate; destruct (St u W eq_refl) as [A B].
  - injection Q as <- <-. now rewrite (H u W2 eq_refl L).
  - destruct (synchronize t1 oc u) as [[] v| | |] eqn:Y; try discriminate. injection Q as <- <-.
    destruct (sync_grows t1 u v B Y) as [A2 _]. rewrite (H u W2 eq_refl ltac:(lia)).
    rewrite (sync_ahead u v); auto. unfold within in *. apply (first_same X S1 S2); lia.
Qed.
Theorem rounds_ahead s l s1 : within t1 s -> rounds t1 trailing oc s l s1 -> cur s1 + 2 < length X ->
  rounds t2 trailing oc s l s1.
Proof.
  intros W R. induction R as [s|s i s1 l s2 E O R IH]; intros L; [constructor|].
  destruct (round_grows _ _ _ _ W O) as [A B]. destruct (rounds_grow _ _ _ _ R B) as [C _].
  apply rounds_one with s1; [|apply round_ahead; auto; lia|now apply IH].
  rewrite <- (end_same X S1 S2 (S (cur s)) ltac:(lia) s ltac:(lia)). exact E.
Qed.
End Top.

(** ** What the rounds add stays in the result *)
Section Result.
Variable toks : list token.
Variables trailing oc : bool.
Lemma loop_keeps n : forall sts errs s sts' errs' s', parse_loop toks trailing oc n sts errs s = Done (sts', errs', s') ->
  exists a b, sts' = (sts ++ a)%list /\ errs' = (errs ++ b)%list.
Proof.
  induction n as [|n IH]; intros sts errs s sts' errs' s'; cbn [parse_loop]; destruct (is_at_end toks s).
  1,3: intros Q; injection Q as <- <- <-; exists nil, nil; now rewrite !app_nil_r.
  - discriminate.
  - destruct (k_decl _ s) as [d u|c u|w|]; try discriminate.
    + intros Q. destruct (IH _ _ _ _ _ _ Q) as (x & y & -> & ->). exists (d :: x), y. now rewrite <- app_assoc.
    + destruct (synchronize toks oc u); try discriminate.
      intros Q. destruct (IH _ _ _ _ _ _ Q) as (x & y & -> & ->). exists x, (c :: y). now rewrite <- app_assoc.
Qed.
Lemma loop_rounds s l s1 : rounds toks trailing oc s l s1 -> forall n sts errs r,
  parse_loop toks trailing oc n sts errs s = Done r ->
  exists m, parse_loop toks trailing oc m (sts ++ statements_of l) (errs ++ errors_of l) s1 = Done r.
Proof.
  induction 1 as [s|s i s1 l s2 E O R IH]; intros n sts errs r Q.
  - exists n. cbn. now rewrite !app_nil_r.
  - destruct n as [|n]; cbn [parse_loop] in Q; rewrite E in Q; [discriminate|]. unfold one_round in O.
    destruct (k_decl _ s) as [d u|c u|w|]; try discriminate.
    + injection O as <- <-. destruct (IH _ _ _ _ Q) as (m & Z). exists m. cbn. now rewrite <- app_assoc in Z.
    + destruct (synchronize toks oc u); try discriminate. injection O as <- <-.
      destruct (IH _ _ _ _ Q) as (m & Z). exists m. cbn. now rewrite <- app_assoc in Z.
Qed.
Theorem rounds_result l s : rounds toks trailing oc (mkP 0 0) l s ->
  match parse_tokens toks trailing oc with
  | Done (Ok sts) => errors_of l = nil /\ exists more, sts = (statements_of l ++ more)%list
  | Done (Err errs) => exists more, errs = (errors_of l ++ more)%list
  | _ => True
  end.
Proof.
  intros R. unfold parse_tokens. destruct (parse_loop _ _ _ _ nil nil _) as [[[sts errs] u]| | |] eqn:Q; cbn [obind]; auto.
  destruct (loop_rounds _ _ _ R _ _ _ _ Q) as (m & Z). cbn [app] in Z.
  destruct (loop_keeps _ _ _ _ _ _ _ Z) as (a & b & -> & ->).
  destruct (consume _ _ _ _ _); auto.
  - destruct (errors_of l ++ b)%list as [|e r] eqn:Y.
    + apply app_eq_nil in Y. destruct Y as [-> ->]. eauto.
    + eauto.
  - exists (b ++ [c])%list. now rewrite app_assoc.
Qed.
End Result.
Theorem results_ahead X S1 S2 trailing oc l s : rounds (X ++ S1) trailing oc (mkP 0 0) l s -> cur s + 2 < length X ->
  match parse_tokens (X ++ S2) trailing oc with
  | Done (Ok sts) => errors_of l = nil /\ exists more, sts = (statements_of l ++ more)%list
  | Done (Err errs) => exists more, errs = (errors_of l ++ more)%list
  | _ => True
  end.
Proof.
  intros R L. apply rounds_result with s. apply (rounds_ahead X S1 S2); auto. unfold within. cbn. lia.
Qed.

(** ** Every run is made of rounds *)
Lemma loop_is toks trailing oc n : forall sts errs s sts' errs' s', parse_loop toks trailing oc n sts errs s = Done (sts', errs', s') ->
  exists l, rounds toks trailing oc s l s' /\ is_at_end toks s' = true /\
    sts' = (sts ++ statements_of l)%list /\ errs' = (errs ++ errors_of l)%list.
Proof.
  induction n as [|n IH]; intros sts errs s sts' errs' s'; cbn [parse_loop]; destruct (is_at_end toks s) eqn:E.
  1,3: intros Q; injection Q as <- <- <-; exists nil; cbn; rewrite !app_nil_r; repeat split; auto; constructor.
  - discriminate.
  - destruct (k_decl _ s) as [d u|c u|w|] eqn:K; try discriminate.
    + intros Q. destruct (IH _ _ _ _ _ _ Q) as (l & R & Z & -> & ->). exists (Parsed d :: l). cbn. rewrite <- !app_assoc.
      repeat split; auto. apply rounds_one with u; auto. unfold one_round. now rewrite K.
    + destruct (synchronize toks oc u) as [x v| | |] eqn:Y; try discriminate.
      intros Q. destruct (IH _ _ _ _ _ _ Q) as (l & R & Z & -> & ->). exists (Failed c :: l). cbn. rewrite <- !app_assoc.
      repeat split; auto. apply rounds_one with v; auto. unfold one_round. now rewrite K, Y.
Qed.
Lemma no_failure l : errors_of l = nil -> l = map Parsed (statements_of l).
Proof. induction l as [|[d|c] r IH]; intros Q; auto; [|discriminate]. change (Parsed d :: r = Parsed d :: map Parsed (statements_of r)). f_equal. now apply IH. Qed.
Theorem result_rounds toks trailing oc r : parse_tokens toks trailing oc = Done r ->
  exists l s, rounds toks trailing oc (mkP 0 0) l s /\ is_at_end toks s = true /\
    match r with
    | Ok sts => l = map Parsed sts
    | Err errs => exists last, errs = (errors_of l ++ last)%list /\ length last <= 1
    end.
Proof.
  unfold parse_tokens. destruct (parse_loop _ _ _ _ nil nil _) as [[[sts errs] u]| | |] eqn:Q; cbn [obind]; try discriminate.
  destruct (loop_is _ _ _ _ _ _ _ _ _ _ Q) as (l & R & Z & -> & ->). cbn [app].
  intros P. exists l, u. repeat split; auto. destruct (consume _ _ _ _ _); try discriminate.
  - destruct (errors_of l) as [|e es] eqn:Y; injection P as <-.
    + now apply no_failure.
    + exists nil. rewrite app_nil_r. auto.
  - injection P as <-. eexists. split; [reflexivity|]. auto.
Qed.

(** ** An error is found where it is *)
Theorem error_ahead X S1 S2 trailing oc l s c u : rounds (X ++ S1) trailing oc (mkP 0 0) l s -> is_at_end (X ++ S1) s = false ->
  declaration_at (X ++ S1) trailing oc s = PErr c u -> cur u + 2 < length X ->
  match parse_tokens (X ++ S2) trailing oc with
  | Done (Ok sts) => False
  | Done (Err errs) => exists more, errs = (errors_of l ++ c :: more)%list
  | _ => True
  end.
Proof.
  intros R E Dc L.
  assert (W0 : within (X ++ S1) (mkP 0 0)) by (unfold within; cbn; lia).
  destruct (rounds_grow trailing oc _ _ _ _ R W0) as [_ W].
  destruct (stays trailing oc (X ++ S1) s u W) as [G _]; [now rewrite Dc|].
  assert (W2 : within (X ++ S2) s) by (unfold within in *; apply (first_same X S1 S2); lia).
  assert (R2 : rounds (X ++ S2) trailing oc (mkP 0 0) l s) by (apply (rounds_ahead X S1 S2); auto; lia).
  assert (D2 : declaration_at (X ++ S2) trailing oc s = PErr c u).
  { rewrite <- Dc. apply declaration_ahead with u; auto. now rewrite Dc. }
  assert (E2 : is_at_end (X ++ S2) s = false).
  { rewrite <- (end_same X S1 S2 (S (cur s)) ltac:(lia) s ltac:(lia)). exact E. }
  unfold parse_tokens. destruct (parse_loop _ _ _ _ nil nil _) as [[[sts errs] v]| | |] eqn:Q; cbn [obind]; auto.
  destruct (loop_rounds _ _ _ _ _ _ R2 _ _ _ _ Q) as (m & Z). cbn [app] in Z.
  destruct m as [|m]; cbn [parse_loop] in Z; rewrite E2 in Z; [discriminate|].
  unfold declaration_at in D2. rewrite D2 in Z. destruct (synchronize _ _ _); try discriminate.
  destruct (loop_keeps _ _ _ _ _ _ _ _ _ _ Z) as (x & y & -> & ->). rewrite <- app_assoc. cbn [app].
  destruct (consume _ _ _ _ _); auto.
  - destruct (errors_of l ++ c :: y)%list eqn:Y; [now apply app_eq_nil in Y|]. rewrite <- Y. eauto.
  - exists (y ++ [c0])%list. now rewrite <- app_assoc.
Qed.
