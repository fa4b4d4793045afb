(** The driver properties, in the form in which P_Driver.v states them. *)
From Verif Require Import Base F64 Token Ast Scanner Parser Resolver Show Driver
  SpecLex SpecScan SpecResolve SpecTree SpecShow SpecDriver
  ShowFacts ShowTree ShowJs ShowNumbers ResolveFinal ResolveProps ParseProps ParseFinal DriverFacts DriverText
  Segment TestsParser ScanFinal.
Local Open Scope string_scope.

(** [gs] is accepted by parser and resolver, with the resolved tree [l]. *)
Definition resolves (U : unicode) (oc : bool) (gs : list string) (l : list stmt) : Prop :=
  exists ast, parse U oc gs = Done (Ok ast) /\ resolve ast = Done (Ok l).
(** Parser or resolver reject [gs] with these causes. *)
Definition fails (U : unicode) (oc : bool) (gs : list string) (cs : list cause) : Prop :=
  parse U oc gs = Done (Err cs) \/ exists ast, parse U oc gs = Done (Ok ast) /\ resolve ast = Done (Err cs).
(** The resolver panics: more than 65534 scopes in one another. *)
Definition too_deep (U : unicode) (oc : bool) (gs : list string) : Prop :=
  exists ast, parse U oc gs = Done (Ok ast) /\ Exists (fun st => (65534 < nesting st)%N) ast.

Section Props.
Variable U : unicode.
Variable oc : bool.
Variable F : formats.
Hypothesis Sn : sane U.

Lemma file_fate : forall name gs, valid_source gs ->
  let p := main_file U oc F name (Contents gs) in
  (exists l, resolves U oc gs l /\ p = mkProcess (debug_program F l ++ s_nl) "" (Exited 0)) \/
  (exists cs, fails U oc gs cs /\ cs <> nil /\ p = mkProcess "" (cat (map error_line cs)) (Exited 65)) \/
  (exists w, too_deep U oc gs /\ p = mkProcess "" "" (Aborted w)) \/
  (scan_tokens U gs = Diverged /\ p = mkProcess "" "" Hung).
Proof.
  intros name gs V p. destruct (file_cases U Sn oc F name gs V) as [(l & l' & A & B & C)|[(cs & A & B & C)|
    [(l & w & A & B & C & D)|(A & B & C)]]].
  - left. exists l'. split; [exists l|]; auto.
  - right. left. exists cs. auto.
  - right. right. left. exists w. split; [exists l|]; auto.
  - right. right. right. auto.
Qed.
Lemma resolves_one : forall gs l l', resolves U oc gs l -> resolves U oc gs l' -> l = l'.
Proof. intros gs l l' (a & A & B) (a' & A' & B'). congruence. Qed.
Lemma resolves_fails : forall gs l cs, resolves U oc gs l -> fails U oc gs cs -> False.
Proof. intros gs l cs (a & A & B) [C|(a' & C & D)]; congruence. Qed.
Lemma fails_one : forall gs cs cs', fails U oc gs cs -> fails U oc gs cs' -> cs = cs'.
Proof. intros gs cs cs' [A|(a & A & B)] [A'|(a' & A' & B')]; congruence. Qed.

Lemma status_65 : forall name gs, valid_source gs ->
  (p_end (main_file U oc F name (Contents gs)) = Exited 65 <-> exists cs, fails U oc gs cs).
Proof.
  intros name gs V. pose proof (file_fate name gs V) as H. cbn zeta in H. split.
  - intros E. destruct H as [(l & _ & H)|[(cs & A & _)|[(w & _ & H)|(_ & H)]]];
      try (rewrite H in E; discriminate E). eauto.
  - intros (cs & A). destruct (file_cases U Sn oc F name gs V) as [(l & l' & B & C & _)|[(cs' & _ & _ & H1)|
      [(l & w & B & C & _)|(_ & B & _)]]].
    + exfalso. eapply resolves_fails; [exists l; eauto|exact A].
    + rewrite H1. reflexivity.
    + exfalso. destruct A as [A|(a & A & A')]; congruence.
    + exfalso. destruct A as [A|(a & A & A')]; congruence.
Qed.
Lemma status_0 : forall name gs, valid_source gs ->
  (p_end (main_file U oc F name (Contents gs)) = Exited 0 <-> exists l, resolves U oc gs l).
Proof.
  intros name gs V. pose proof (file_fate name gs V) as H. cbn zeta in H. split.
  - intros E. destruct H as [(l & A & H)|[(cs & _ & _ & H)|[(w & _ & H)|(_ & H)]]];
      try (rewrite H in E; discriminate E). eauto.
  - intros (l & a & A & A'). destruct (file_cases U Sn oc F name gs V) as [(l1 & l' & B & C & H1)|[(cs' & B & _)|
      [(l1 & w & B & C & _)|(_ & B & _)]]].
    + rewrite H1. reflexivity.
    + exfalso. eapply resolves_fails; [exists a; eauto|exact B].
    + congruence.
    + congruence.
Qed.
Lemma streams : forall name gs, valid_source gs ->
  let p := main_file U oc F name (Contents gs) in
  (p_out p <> "" <-> p_end p = Exited 0) /\ (p_err p <> "" <-> p_end p = Exited 65).
Proof.
  intros name gs V p. pose proof (file_fate name gs V) as H. cbn zeta in H. fold p in H.
  destruct H as [(l & _ & H)|[(cs & _ & N & H)|[(w & _ & H)|(_ & H)]]]; rewrite H; cbn [p_out p_err p_end].
  - repeat split; intros; try discriminate; try (exfalso; auto; fail). destruct (debug_program F l); discriminate.
  - repeat split; intros; try discriminate; try (exfalso; auto; fail).
    destruct cs as [|c cs]; [exfalso; auto|]. apply error_line_nonempty.
  - repeat split; intros; try discriminate; exfalso; auto.
  - repeat split; intros; try discriminate; exfalso; auto.
Qed.

(** The printed tree *)
Lemma resolves_literals : forall gs l, valid_source gs -> resolves U oc gs l -> literals l.
Proof.
  intros gs l V (a & A & B). destruct (wasm_cases U Sn oc F gs V) as [(l1 & l' & C & D & _ & E)|[(cs & C & _)|
    [(l1 & w & C & D & _)|(_ & C & _)]]]; try congruence.
  exfalso. eapply resolves_fails; [exists a; eauto|exact C].
Qed.
Lemma printed_tree : quotes (f_str F) -> writes_numbers (f_num F) ->
  forall gs gs' l l', valid_source gs -> valid_source gs' ->
  resolves U oc gs l -> resolves U oc gs' l' ->
  debug_program F l = debug_program F l' -> l = l'.
Proof.
  intros Q [NP NI] gs gs' l l' V V' A A'. apply debug_program_inj; auto using quotes_quoting.
  - intros x X. apply lacks_plain, NP, X.
  - apply (resolves_literals gs l V A).
  - apply (resolves_literals gs' l' V' A').
Qed.
Lemma output_determines : quotes (f_str F) -> writes_numbers (f_num F) ->
  forall name name' gs gs', valid_source gs -> valid_source gs' ->
  p_end (main_file U oc F name (Contents gs)) = Exited 0 ->
  p_out (main_file U oc F name (Contents gs)) = p_out (main_file U oc F name' (Contents gs')) ->
  exists l, resolves U oc gs l /\ resolves U oc gs' l.
Proof.
  intros Q N name name' gs gs' V V' E O.
  destruct (file_fate name gs V) as [(l & A & H)|[(cs & _ & _ & H)|[(w & _ & H)|(_ & H)]]];
    rewrite H in E, O; try discriminate E.
  cbn [p_out] in O. exists l. split; auto.
  destruct (file_fate name' gs' V') as [(l' & A' & H')|[(cs & _ & _ & H')|[(w & _ & H')|(_ & H')]]];
    rewrite H' in O; cbn [p_out] in O; try (destruct (debug_program F l); discriminate O).
  apply app_cancel_r in O. rewrite (printed_tree Q N gs gs' l l' V V' A A' O). exact A'.
Qed.

(** WebAssembly *)
Lemma wasm_fate : forall gs, valid_source gs ->
  (exists l, resolves U oc gs l /\ parse_string U oc F gs = Done (Ok (JArray (map jstmt l)))) \/
  (exists cs, fails U oc gs cs /\ cs <> nil /\
     parse_string U oc F gs = Done (Err (cat (map (error_paragraph F) cs)))) \/
  (exists w, too_deep U oc gs /\ parse_string U oc F gs = Panicked w) \/
  (scan_tokens U gs = Diverged /\ parse_string U oc F gs = Diverged).
Proof.
  intros gs V. destruct (wasm_cases U Sn oc F gs V) as [(l & l' & A & B & C & _)|[(cs & A & B & C)|
    [(l & w & A & B & C & D)|(A & B & C)]]].
  - left. exists l'. split; [exists l|]; auto.
  - right. left. exists cs. auto.
  - right. right. left. exists w. split; [exists l|]; auto.
  - right. right. right. auto.
Qed.
Lemma wasm_ok : forall gs v, valid_source gs ->
  parse_string U oc F gs = Done (Ok v) ->
  exists l, resolves U oc gs l /\ v = JArray (map jstmt l).
Proof.
  intros gs v V E. destruct (wasm_fate gs V) as [(l & A & H)|[(cs & _ & _ & H)|[(w & _ & H)|(_ & H)]]];
    rewrite H in E; try discriminate E. injection E as <-. eauto.
Qed.
Lemma wasm_value : forall gs gs' v, valid_source gs -> valid_source gs' ->
  parse_string U oc F gs = Done (Ok v) -> parse_string U oc F gs' = Done (Ok v) ->
  exists l, resolves U oc gs l /\ resolves U oc gs' l.
Proof.
  intros gs gs' v V V' E E'. apply wasm_ok in E, E'; auto. destruct E as (l & A & ->), E' as (l' & A' & E').
  apply jstmts_inj in E'. subst. eauto.
Qed.

(** The page *)
Lemma page_ok : writes_numbers (f_js F) ->
  forall gs gs' l l', valid_source gs -> valid_source gs' -> resolves U oc gs l -> resolves U oc gs' l' ->
  (on_change U oc F gs = on_change U oc F gs' <-> map blur l = map blur l').
Proof.
  intros [NP NI] gs gs' l l' V V' A A'.
  assert (X : forall gs l, valid_source gs -> resolves U oc gs l ->
    on_change U oc F gs = Done (display F (JArray (map jstmt l)))).
  { clear - Sn. intros gs l V A. destruct (wasm_fate gs V) as [(l' & A' & H)|[(cs & A' & _ & _)|[(w & A' & H)|(A' & H)]]].
    - rewrite (resolves_one _ _ _ A A'). unfold on_change. rewrite H. reflexivity.
    - exfalso. eapply resolves_fails; eauto.
    - exfalso. destruct A as (a & P & R), A' as (a' & P' & D). assert (a' = a) by congruence. subst.
      destruct new_done as (s & N & T). rewrite (resolve_new s N a) in R.
      destruct (resolver_resolve a s) as [[r s']| | |] eqn:E; try discriminate R. injection R as ->.
      apply (nesting_accepted a s l s' T) in E. apply Exists_exists in D. destruct D as (st & I & D).
      rewrite Forall_forall in E. apply E in I. apply N.lt_nge in D. auto.
    - exfalso. destruct A as (a & P & R). destruct (parse_total U Sn oc gs V) as [(r & B)|(_ & B)]; [|congruence].
      unfold parse, parse_with in B. rewrite A' in B. discriminate B. }
  rewrite (X gs l V A), (X gs' l' V' A').
  rewrite <- (display_inj F NI (fun x X => lacks_plain _ (NP x X)) l l'
    (resolves_literals gs l V A) (resolves_literals gs' l' V' A')).
  split; congruence.
Qed.
Lemma page_error : forall gs t, valid_source gs -> on_change U oc F gs = Done t ->
  ((exists r, t = String (ascii_of_nat 10) r) <-> exists l, resolves U oc gs l).
Proof.
  intros gs t V E. unfold on_change in E.
  destruct (wasm_fate gs V) as [(l & A & H)|[(cs & A & N & H)|[(w & _ & H)|(_ & H)]]]; rewrite H in E;
    try discriminate E; cbn [obind] in E; injection E as <-.
  - split; [eauto|]. intros _. unfold display. cbn [pretty]. unfold s_nl. cbn [append]. eauto.
  - split; [|intros (l & B); exfalso; eapply resolves_fails; eauto]. intros (r & E). exfalso.
    destruct cs as [|c cs]; [auto|]. cbn [map cat] in E. unfold error_paragraph, position in E. norm.
    assert (E2 : decimal (loc_line (c_loc c)) ++ String ":" (decimal (loc_column (c_loc c)) ++
        (match c_token c with Some t => String " " (String "a" (String "t" (String " " (f_str F t)))) | None => "" end ++
         String ":" (String " " (c_message c ++ s_nl ++ s_nl ++ cat (map (error_paragraph F) cs))))) =
        "" ++ String (ascii_of_nat 10) r) by exact E.
    apply (all_split is_digit) in E2; auto using decimal_all. destruct E2 as (_ & D & _). discriminate D.
Qed.
End Props.

(** Two programs that look the same. *)
Lemma page_refuted :
  ~ (forall U oc F gs gs' l l', sane U -> writes_numbers (f_js F) -> valid_source gs -> valid_source gs' ->
     resolves U oc gs l -> resolves U oc gs' l' -> on_change U oc F gs = on_change U oc F gs' -> l = l').
Proof.
  intros H.
  specialize (H sample_unicode true sample_formats (segment ("print true" ++ s_nl)) (segment ("print false" ++ s_nl))
    [SPrint (EBool true)] [SPrint (EBool false)] sample_sane sample_writes).
  assert (X : [SPrint (EBool true)] = [SPrint (EBool false)]); [|discriminate X].
  apply H.
  - apply check_valid. vm_compute. reflexivity.
  - apply check_valid. vm_compute. reflexivity.
  - eexists. split; vm_compute; reflexivity.
  - eexists. split; vm_compute; reflexivity.
  - vm_compute. reflexivity.
Qed.

Lemma eof_refuted :
  ~ (forall U oc F l, sane U -> Forall valid_read l ->
     exists n p, repl U oc F (l ++ repeat (Line nil) n) = Finished p).
Proof.
  intros H. destruct (H sample_unicode true sample_formats nil sample_sane (Forall_nil _)) as (n & p & E).
  rewrite (repl_eof sample_unicode true sample_formats n nil
    (mkReading prompt "" (mkR [nil] NoFunction NoClass)) eq_refl) in E. discriminate E.
Qed.
