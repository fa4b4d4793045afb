(** Facts about the command line, the REPL and the WebAssembly entry point. *)
From Coq Require Import DecimalString ZArith Lia.
From Verif Require Import Base F64 Token Ast Scanner Parser Resolver Show Driver
  SpecLex SpecScan SpecResolve SpecTree SpecShow SpecDriver
  ShowFacts ShowTree ShowJs ShowNumbers ResolveFinal ResolveProps ParseProps ParseFinal.
Local Open Scope string_scope.

(** ** Formats *)
Lemma quotes_quoting : forall f, quotes f -> quoting f.
Proof. intros f [A B]. split; [exact A|exact B]. Qed.
Lemma lacks_plain : forall s, lacks delimiters s = true -> plain s = true.
Proof.
  induction s as [|c s IH]; auto. cbn [lacks plain]. intros H. apply andb_prop in H. destruct H as [A B].
  rewrite (IH B), andb_true_r. unfold plain_char. unfold delimiters in A. cbn [existsb] in A.
  rewrite orb_false_r, !orb_assoc in A. exact A.
Qed.

(** A sample of formats that meets the assumptions. *)
Definition sample_number (x : f64) : string :=
  match x with
  | SpecFloat.S754_zero s => if s then "neg0" else "0"
  | SpecFloat.S754_infinity s => if s then "neginf" else "inf"
  | SpecFloat.S754_nan => "NaN"
  | SpecFloat.S754_finite s m e =>
    (if s then "-" else "+") ++ decimal (N.pos m) ++ (if (e <? 0)%Z then "e-" else "e+") ++ decimal (Z.abs_N e)
  end.
Definition sample_formats : formats := mkFormats escape_string sample_number sample_number.
Fixpoint digits (s : string) : bool :=
  match s with "" => true | String c r => negb (Ascii.eqb c "e") && digits r end.
Lemma decimal_digits : forall n, digits (decimal n) = true.
Proof.
  assert (X : forall d, digits (NilEmpty.string_of_uint d) = true) by (induction d; cbn; auto).
  intros n. unfold decimal, NilZero.string_of_uint. destruct (N.to_uint n); try apply X; reflexivity.
Qed.
Lemma digits_split : forall p q r r', digits p = true -> digits q = true ->
  p ++ String "e" r = q ++ String "e" r' -> p = q /\ r = r'.
Proof.
  induction p as [|c p IH]; destruct q as [|d q]; cbn [append digits]; intros r r' P Q E.
  - injection E. auto.
  - injection E as <- _. discriminate.
  - injection E as -> _. discriminate.
  - apply andb_prop in P, Q. injection E as -> E. apply IH in E; try tauto. destruct E. subst. auto.
Qed.
Lemma sample_writes : writes_numbers sample_number.
Proof.
  assert (D : forall n, lacks delimiters (decimal n) = true).
  { assert (X : forall d, lacks delimiters (NilEmpty.string_of_uint d) = true) by (induction d; cbn; auto).
    intros n. unfold decimal, NilZero.string_of_uint. destruct (N.to_uint n); try apply X; reflexivity. }
  assert (A : forall a b, lacks delimiters (a ++ b) = (lacks delimiters a && lacks delimiters b)%bool).
  { induction a; cbn [append lacks]; intros; auto. rewrite IHa. apply andb_assoc. }
  split.
  - intros [[]|[]| |[] m e] _; try reflexivity; cbn [sample_number]; rewrite !A, !D; destruct (e <? 0)%Z; reflexivity.
  - intros [[]|[]| |[] m e] [[]|[]| |[] m' e'] _ _ E; try reflexivity; try discriminate E;
      cbn [sample_number append] in E; injection E as E;
      assert (Y : forall e s, (if (e <? 0)%Z then "e-" else "e+") ++ s =
        String "e" ((if (e <? 0)%Z then "-" else "+") ++ s)) by (intros e0 s0; destruct (e0 <? 0)%Z; reflexivity);
      rewrite !Y in E; apply digits_split in E; try apply decimal_digits; destruct E as [E1 E2];
      apply decimal_inj in E1; injection E1 as <-;
      destruct (Z.ltb_spec e 0), (Z.ltb_spec e' 0); try discriminate E2; injection E2 as E2;
      apply decimal_inj in E2; f_equal; lia.
Qed.
Lemma sample_quotes : quotes escape_string.
Proof. exact escape_string_quoting. Qed.

(** ** Errors *)
Lemma error_line_eq : forall c, print_parse_error c = error_line c.
Proof.
  intros [[l c] [t|] m]; unfold print_parse_error, error_line, report_error, report_error_at_token, position; cbn;
    norm; reflexivity.
Qed.
Lemma error_lines_eq : forall l, cat (map print_parse_error l) = cat (map error_line l).
Proof. intros. f_equal. apply map_ext. apply error_line_eq. Qed.
Lemma error_paragraph_eq : forall F c, display_cause F c ++ s_nl = error_paragraph F c.
Proof.
  intros F [[l c] [t|] m]; unfold display_cause, error_paragraph, position; cbn; norm; reflexivity.
Qed.
Lemma display_error_eq : forall F l, display_error F l = cat (map (error_paragraph F) l).
Proof. intros. unfold display_error. f_equal. apply map_ext. apply error_paragraph_eq. Qed.
Lemma error_line_nonempty : forall c l, cat (map error_line (c :: l)) <> "".
Proof. intros c l. cbn [map cat]. unfold error_line. cbn [append]. discriminate. Qed.

Lemma scan_errors_nonempty : forall U gs cs, scan_tokens U gs = Done (Err cs) -> cs <> nil.
Proof.
  intros U gs cs H. unfold scan_tokens, scan_tokens_from in H.
  destruct (scan_loop _ _ _) as [s1| | |]; try discriminate H. cbn [obind] in H.
  destruct (close_all_blocks s1) as [s2| | |]; try discriminate H. cbn [obind] in H.
  destruct (add_token Eof s2) as [s3| | |]; try discriminate H. cbn [obind snd] in H.
  destruct (sc_errors s3); injection H; [discriminate|]. intros <-. discriminate.
Qed.
Lemma resolve_errors_nonempty : forall l s cs s', resolver_resolve l s = Done (Err cs, s') -> cs <> nil.
Proof.
  intros l s cs s' H. unfold resolver_resolve in H.
  destruct (resolve_loop l nil nil s) as [[[a b] c]| | |]; try discriminate H. cbn [obind] in H.
  destruct b; injection H; [discriminate|]. intros _ <-. discriminate.
Qed.

(** ** Parsing and resolving together *)
Section Run.
Variable U : unicode.
Hypothesis Sn : sane U.
Variable oc : bool.
Variable F : formats.

Definition front (for_repl : bool) (gs : list string) : outcome (result (list stmt) parse_error) :=
  if for_repl then parse_repl_line U oc gs else parse U oc gs.
Lemma front_total : forall b gs, valid_source gs ->
  (exists r, front b gs = Done r) \/ (scan_tokens U gs = Diverged /\ front b gs = Diverged).
Proof.
  intros [] gs V; [exact (parse_repl_line_total U Sn oc gs V)|exact (parse_total U Sn oc gs V)].
Qed.
Lemma front_errors : forall b gs cs, valid_source gs -> front b gs = Done (Err cs) -> cs <> nil.
Proof.
  intros b gs cs V H. destruct (parse_errors U Sn oc gs V b cs) as [E|(toks & _ & E & _)]; auto.
  - destruct b; exact H.
  - revert E. apply scan_errors_nonempty.
Qed.
Lemma front_literals : forall b gs l, valid_source gs -> front b gs = Done (Ok l) -> literals l.
Proof.
  intros b gs l V H. apply (parsed_literals U oc gs l Sn V). destruct b; [right|left]; exact H.
Qed.

(** Panics of the resolver *)
Lemma resolve_panics : forall l s, top_state s ->
  match resolver_resolve l s with
  | Done (Err cs, s') => cs <> nil /\ top_state s'
  | Done (Ok l', s') => top_state s' /\ (literals l -> literals l')
  | Panicked _ => Exists (fun st => (65534 < nesting st)%N) l
  | Diverged | OutOfFuel => False
  end.
Proof.
  intros l s T.
  assert (D : (exists r s', resolver_resolve l s = Done (r, s')) \/
              (exists w, resolver_resolve l s = Panicked w)).
  { unfold resolver_resolve. assert (X : forall l a b s, (exists r, resolve_loop l a b s = Done r) \/
      exists w, resolve_loop l a b s = Panicked w).
    { clear. induction l as [|st l IH]; intros a b s; cbn [resolve_loop]; [eauto|].
      match goal with |- context [match ?x with ROk _ _ => _ | RErr _ _ => _ | RPanic _ => _ end] => destruct x end; eauto. }
    destruct (X l nil nil s) as [[[[a b] c] E]|[w E]]; rewrite E; cbn [obind]; eauto. }
  destruct D as [(r & s' & E)|(w & E)]; rewrite E.
  - destruct r as [l'|cs].
    + split; [eapply resolve_top; eauto|]. eapply resolved_literals; eauto.
    + split; [eapply resolve_errors_nonempty; eauto|eapply resolve_top; eauto].
  - destruct (Exists_dec (fun st => (65534 < nesting st)%N) l) as [H|H]; auto.
    { intros st. destruct (65534 <? nesting st)%N eqn:X; [left; apply N.ltb_lt|right; apply N.nlt_ge, N.ltb_ge]; exact X. }
    exfalso. destruct (program_no_panic l s T) as (r & s' & X); [|congruence].
    apply Forall_Exists_neg in H. refine (Forall_impl _ _ H). intros st. cbn. lia.
Qed.

(** ** A file *)
Lemma resolve_new : forall s, resolver_new = Done s -> forall l,
  resolve l = match resolver_resolve l s with
              | Done (r, _) => Done r
              | Panicked w => Panicked w
              | Diverged => Diverged
              | OutOfFuel => OutOfFuel
              end.
Proof.
  intros s E l. unfold resolve. rewrite E. cbn [obind].
  destruct (resolver_resolve l s) as [[r s']| | |]; reflexivity.
Qed.
Lemma new_done : exists s, resolver_new = Done s /\ top_state s.
Proof.
  destruct resolver_new as [s| | |] eqn:E; try (exfalso; vm_compute in E; discriminate E).
  exists s. split; auto. apply new_top. exact E.
Qed.

Lemma file_cases : forall name gs, valid_source gs ->
  let p := main_file U oc F name (Contents gs) in
  (exists l l', parse U oc gs = Done (Ok l) /\ resolve l = Done (Ok l') /\
     p = mkProcess (debug_program F l' ++ s_nl) "" (Exited 0)) \/
  (exists cs, (parse U oc gs = Done (Err cs) \/
               exists l, parse U oc gs = Done (Ok l) /\ resolve l = Done (Err cs)) /\
     cs <> nil /\ p = mkProcess "" (cat (map error_line cs)) (Exited 65)) \/
  (exists l w, parse U oc gs = Done (Ok l) /\ resolve l = Panicked w /\
     Exists (fun st => (65534 < nesting st)%N) l /\ p = mkProcess "" "" (Aborted w)) \/
  (scan_tokens U gs = Diverged /\ parse U oc gs = Diverged /\ p = mkProcess "" "" Hung).
Proof.
  intros name gs V p. destruct new_done as (s & E & T).
  assert (P : p = main_file U oc F name (Contents gs)) by reflexivity. clearbody p.
  unfold main_file in P. rewrite E in P. cbn [obind] in P. unfold run in P.
  destruct (front_total false gs V) as [([l|cs] & H)|[H1 H]]; unfold front in H; rewrite H in P; cbn [obind] in P.
  - pose proof (resolve_panics l s T) as R. pose proof (resolve_new s E l) as N.
    destruct (resolver_resolve l s) as [[[l'|cs] s']|w| |].
    + left. exists l, l'. auto.
    + right. left. exists cs. cbn in P. rewrite error_lines_eq in P.
      repeat split; eauto. apply R.
    + right. right. left. exists l, w. auto.
    + destruct R.
    + destruct R.
  - right. left. exists cs. cbn in P. rewrite error_lines_eq in P. repeat split; auto.
    apply (front_errors false gs cs V H).
  - right. right. right. auto.
Qed.

(** ** The WebAssembly entry point *)
Lemma wasm_cases : forall gs, valid_source gs ->
  (exists l l', parse U oc gs = Done (Ok l) /\ resolve l = Done (Ok l') /\
     parse_string U oc F gs = Done (Ok (JArray (map jstmt l'))) /\ literals l') \/
  (exists cs, (parse U oc gs = Done (Err cs) \/
               exists l, parse U oc gs = Done (Ok l) /\ resolve l = Done (Err cs)) /\
     cs <> nil /\ parse_string U oc F gs = Done (Err (cat (map (error_paragraph F) cs)))) \/
  (exists l w, parse U oc gs = Done (Ok l) /\ resolve l = Panicked w /\
     Exists (fun st => (65534 < nesting st)%N) l /\ parse_string U oc F gs = Panicked w) \/
  (scan_tokens U gs = Diverged /\ parse U oc gs = Diverged /\ parse_string U oc F gs = Diverged).
Proof.
  intros gs V. destruct new_done as (s & E & T). unfold parse_string.
  destruct (front_total false gs V) as [([l|cs] & H)|[H1 H]]; unfold front in H; rewrite H; cbn [obind].
  - pose proof (resolve_panics l s T) as R. rewrite !(resolve_new s E l). 
    destruct (resolver_resolve l s) as [[[l'|cs] s']|w| |] eqn:E2; cbn [obind].
    + left. exists l, l'. rewrite (resolve_new s E l), E2. repeat split; auto.
      apply R. apply (front_literals false gs l V H).
    + right. left. exists cs. rewrite display_error_eq.
      repeat split; [|apply R]. right. exists l. split; auto. rewrite (resolve_new s E l), E2. auto.
    + right. right. left. exists l, w. rewrite (resolve_new s E l), E2. auto.
    + destruct R.
    + destruct R.
  - right. left. exists cs. rewrite display_error_eq. repeat split; auto.
    apply (front_errors false gs cs V H).
  - right. right. right. auto.
Qed.

(** ** The REPL *)
Lemma repl_snoc : forall l i, repl U oc F (l ++ [i]) = repl_step U oc F (repl U oc F l) i.
Proof. intros. unfold repl. rewrite fold_left_app. reflexivity. Qed.
Lemma repl_finished : forall l p, fold_left (repl_step U oc F) l (Finished p) = Finished p.
Proof. induction l; cbn; auto. Qed.

(** The programs of a session: the lines that parse. *)
Definition parsed_line (i : input) : list (list stmt) :=
  match i with
  | Line gs => match parse_repl_line U oc gs with Done (Ok l) => [l] | _ => nil end
  | Failure _ => nil
  end.
Definition valid_read (i : input) : Prop :=
  match i with Line gs => valid_source gs | Failure _ => True end.

Lemma repl_history : forall l r, repl U oc F l = Reading r ->
  exists h, history h (r_resolver r) /\ map fst h = flat_map parsed_line l /\
    Forall (fun i => exists gs, i = Line gs) l.
Proof.
  induction l as [|i l IH] using rev_ind; intros r H.
  - destruct new_done as (s & E & T). unfold repl, repl_start in H. cbn [fold_left] in H. rewrite E in H.
    injection H as <-. exists nil. repeat split; auto. constructor. exact E.
  - rewrite repl_snoc in H. destruct (repl U oc F l) as [r0|p] eqn:E; [|discriminate H].
    destruct (IH r0 eq_refl) as (h & Hh & Hm & Hl). cbn [repl_step] in H. unfold repl_read in H.
    destruct i as [gs|e]; [|discriminate H]. unfold run in H.
    destruct (parse_repl_line U oc gs) as [[ast|cs]| | |] eqn:P; try discriminate H; cbn [obind] in H.
    + destruct (resolver_resolve ast (r_resolver r0)) as [[res s]| | |] eqn:R; try discriminate H.
      exists (h ++ [(ast, res)])%list. rewrite flat_map_app, map_app, Hm. cbn [flat_map map parsed_line fst].
      rewrite P. cbn [app]. repeat split.
      * destruct (print_result F res). injection H as <-. cbn. econstructor; eauto.
      * apply Forall_app. split; auto. constructor; eauto.
    + cbn in H. injection H as <-. exists h. rewrite flat_map_app. cbn [flat_map parsed_line]. rewrite P.
      cbn [app]. rewrite app_nil_r. repeat split; auto. apply Forall_app. split; auto. constructor; eauto.
Qed.

(** One line. *)
Lemma repl_line : forall l r gs, repl U oc F l = Reading r -> valid_source gs ->
  (exists ast ast' s', parse_repl_line U oc gs = Done (Ok ast) /\
     resolver_resolve ast (r_resolver r) = Done (Ok ast', s') /\
     repl U oc F (l ++ [Line gs]) =
       Reading (mkReading (r_out r ++ debug_program F ast' ++ s_nl ++ prompt) (r_err r) s')) \/
  (exists ast cs s', parse_repl_line U oc gs = Done (Ok ast) /\
     resolver_resolve ast (r_resolver r) = Done (Err cs, s') /\ cs <> nil /\
     repl U oc F (l ++ [Line gs]) =
       Reading (mkReading (r_out r ++ prompt) (r_err r ++ cat (map error_line cs)) s')) \/
  (exists cs, parse_repl_line U oc gs = Done (Err cs) /\ cs <> nil /\
     repl U oc F (l ++ [Line gs]) =
       Reading (mkReading (r_out r ++ prompt) (r_err r ++ cat (map error_line cs)) (r_resolver r))) \/
  (exists ast w, parse_repl_line U oc gs = Done (Ok ast) /\
     resolver_resolve ast (r_resolver r) = Panicked w /\
     Exists (fun st => (65534 < nesting st)%N) ast /\
     repl U oc F (l ++ [Line gs]) = Finished (mkProcess (r_out r) (r_err r) (Aborted w))) \/
  (scan_tokens U gs = Diverged /\ parse_repl_line U oc gs = Diverged /\
     repl U oc F (l ++ [Line gs]) = Finished (mkProcess (r_out r) (r_err r) Hung)).
Proof.
  intros l r gs H V. destruct (repl_history l r H) as (h & Hh & _). apply history_top in Hh.
  rewrite repl_snoc, H. cbn [repl_step]. unfold repl_read, run.
  destruct (front_total true gs V) as [([ast|cs] & E)|[H1 E]]; unfold front in E; rewrite E; cbn [obind].
  - pose proof (resolve_panics ast (r_resolver r) Hh) as R.
    destruct (resolver_resolve ast (r_resolver r)) as [[[l'|cs] s']|w| |] eqn:E2; cbn [print_result].
    + left. exists ast, l', s'. repeat split; auto. norm. rewrite app_nil_s. reflexivity.
    + right. left. exists ast, cs, s'. rewrite error_lines_eq. repeat split; auto. apply R.
    + do 3 right. left. exists ast, w. auto.
    + destruct R.
    + destruct R.
  - right. right. left. exists cs. cbn [print_result]. rewrite error_lines_eq. repeat split; auto.
    apply (front_errors true gs cs V E).
  - do 4 right. auto.
Qed.

(** The end of input. *)
Lemma empty_line : parse_repl_line U oc nil = Done (Ok nil).
Proof. destruct oc; vm_compute; reflexivity. Qed.
Fixpoint times (n : nat) (s : string) : string := match n with 0 => "" | S m => s ++ times m s end.
Lemma repl_eof : forall n l r, repl U oc F l = Reading r ->
  repl U oc F (l ++ repeat (Line nil) n) =
  Reading (mkReading (r_out r ++ times n ("[]" ++ s_nl ++ prompt)) (r_err r) (r_resolver r)).
Proof.
  induction n as [|n IH]; intros l r H.
  - cbn [repeat times]. rewrite app_nil_r, app_nil_s, H. destruct r. reflexivity.
  - cbn [repeat times]. change (Line nil :: repeat (Line nil) n)%list with ([Line nil] ++ repeat (Line nil) n)%list.
    rewrite app_assoc.
    rewrite (IH _ (mkReading (r_out r ++ ("[]" ++ s_nl ++ prompt)) (r_err r) (r_resolver r))).
    + cbn [r_out r_err r_resolver]. rewrite app_assoc_s. reflexivity.
    + rewrite repl_snoc, H. cbn [repl_step]. unfold repl_read, run. rewrite empty_line. cbn [obind].
      unfold resolver_resolve. cbn [resolve_loop obind rev].
      cbn [print_result]. rewrite app_nil_s. cbn. reflexivity.
Qed.

(** Why a session ends. *)
Lemma repl_ends : forall l p, Forall valid_read l -> repl U oc F l = Finished p ->
  exists pre i post r, l = (pre ++ i :: post)%list /\ repl U oc F pre = Reading r /\
    ((exists e, i = Failure e /\
        p = mkProcess (r_out r ++ "Error reading stdin: " ++ e ++ s_nl) (r_err r) (Exited 0)) \/
     (exists gs ast w, i = Line gs /\ parse_repl_line U oc gs = Done (Ok ast) /\
        Exists (fun st => (65534 < nesting st)%N) ast /\
        p = mkProcess (r_out r) (r_err r) (Aborted w)) \/
     (exists gs, i = Line gs /\ scan_tokens U gs = Diverged /\ p = mkProcess (r_out r) (r_err r) Hung)).
Proof.
  induction l as [|i l IH] using rev_ind; intros p V H.
  - destruct new_done as (s & E & T). unfold repl, repl_start in H. cbn [fold_left] in H. rewrite E in H.
    discriminate H.
  - apply Forall_app in V. destruct V as [V Vi]. inversion Vi; subst; clear Vi.
    destruct (repl U oc F l) as [r|p'] eqn:E.
    + exists l, i, nil, r. repeat split; auto. destruct i as [gs|e].
      * right. destruct (repl_line l r gs E H2) as [(? & ? & ? & _ & _ & X)|[(? & ? & ? & _ & _ & _ & X)|
          [(? & _ & _ & X)|[(ast & w & P & _ & D & X)|(P & _ & X)]]]]; try congruence.
        -- left. exists gs, ast, w. repeat split; auto. congruence.
        -- right. exists gs. repeat split; auto. congruence.
      * left. exists e. split; auto. rewrite repl_snoc, E in H. cbn [repl_step repl_read] in H. congruence.
    + rewrite repl_snoc, E in H. cbn in H. injection H as ->.
      destruct (IH p V eq_refl) as (pre & j & post & r & -> & A & B).
      exists pre, j, (post ++ [i])%list, r. rewrite <- app_assoc. auto.
Qed.
End Run.

(** A history is one program. *)
Lemma history_one : forall h s, history h s -> forall s0, resolver_new = Done s0 ->
  resolver_resolve (List.concat (map fst h)) s0 = Done (fold_left both (map snd h) (Ok nil), s).
Proof.
  induction 1 as [s H|h s l r s' Hh IH H]; intros s0 E.
  - rewrite E in H. injection H as <-. reflexivity.
  - rewrite map_app, concat_app. cbn [map List.concat fst]. rewrite app_nil_r.
    rewrite resolve_pieces, (IH s0 E). cbn [obind snd]. rewrite H. cbn [obind fst snd].
    rewrite map_app, fold_left_app. reflexivity.
Qed.
