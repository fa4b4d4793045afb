(** The messages of all errors are those of SpecMessages.v. *)
From Verif Require Import Base F64 Token Ast Scanner Parser Resolver Show Driver SpecLex SpecLayout SpecScan
  SpecGrammar SpecReject SpecResolve SpecCheck SpecDriver SpecWhole SpecMessages
  ResolveFinal ResolveProps ScanProps ScanUnique ScanPairs ScanLex ScanLayout ScanErrors ScanFinal RejectFinal ResolveCauses ShowFacts DriverFacts DriverText DriverProps Whole Segment TestsParser.
Local Open Scope string_scope.

(** ** Scanner *)
Section Scan.
Variable U : unicode.
Hypothesis Sn : sane U.

Lemma scan_causes : forall gs cs, valid_source gs -> scan_tokens U gs = Done (Err cs) ->
  Forall (scan_cause gs) cs.
Proof.
  intros gs cs V H. destruct (lexing_unique U gs) as (es & L & _).
  destruct (fails_exactly U Sn gs es _ V L H) as [_ X]. destruct (X cs eq_refl) as [-> _].
  apply Forall_forall. intros c I. apply error_origin in I.
  destruct I as [(a & e & b & E & I)|(pre & l & post & before & e & r & _ & _ & _ & _ & ->)].
  - destruct e; cbn in I; try contradiction; destruct I as [<-|[]]; (split; [reflexivity|]); cbn [c_message cause_new];
      try (left; cbn; tauto).
    right. exists g. split; [|reflexivity]. rewrite (lexes_text _ _ _ L), E.
    apply in_flat_map. eexists. split; [apply in_elt|]. cbn. auto.
  - split; [reflexivity|]. left. cbn. tauto.
Qed.
End Scan.

(** ** Parser *)
(** The messages that the steps can lead to, with [i] ahead. *)
Inductive speaks : list token -> list step -> Prop :=
| sk_nil i : speaks i nil
| sk_skip i st : (forall j, speaks j st) -> speaks i (Skip :: st)
| sk_need i lv ks msg st : In msg parse_messages -> (forall j, speaks j st) -> speaks i (Need lv ks msg :: st)
| sk_reject i c st : parse_cause c -> speaks i (Reject c :: st)
| sk_sub i p st : (forall j, speaks j st) -> speaks i (Sub p :: st)
| sk_last i p st : speaks i (Last p :: st)
| sk_target i k st : (forall e r, speaks r (k e r ++ st)%list) -> speaks i (TargetThen k :: st)
| sk_look i k st : speaks i (k i ++ st)%list -> speaks i (Look k :: st).

Lemma parse_cause_at : forall l t m, In m parse_messages -> parse_cause (cause_at l t m).
Proof. intros. split; [discriminate|exact H]. Qed.
Lemma listed : forall m, existsb (String.eqb m) parse_messages = true -> In m parse_messages.
Proof. intros m H. apply existsb_exists in H. destruct H as (x & I & E). apply String.eqb_eq in E. now subst. Qed.
Ltac message := apply listed; vm_compute; reflexivity.
Lemma closing_message : forall k, In (closing k " after block.") parse_messages.
Proof. intros k. destruct k; message. Qed.
Lemma closing_message' : forall k, In (closing k " after class method body.") parse_messages.
Proof. intros k. destruct k; message. Qed.

Ltac speak :=
  repeat first
    [ apply sk_nil
    | apply sk_last
    | match goal with |- speaks _ (Look _ :: _) => apply sk_look; cbn beta end
    | match goal with |- speaks _ (maybe _ :: _) => unfold maybe end
    | match goal with |- speaks _ (unless _ _ :: _) => unfold unless end
    | match goal with |- speaks _ (need _ _ :: _) => unfold need end
    | match goal with |- speaks _ (wrong _ :: _) => unfold wrong end
    | match goal with |- speaks _ (SpecReject.block _ :: _) => unfold SpecReject.block end
    | match goal with |- speaks _ (opening _ _ _ :: _) => unfold opening end
    | match goal with |- speaks _ (Skip :: _) => apply sk_skip; intros ? end
    | match goal with |- speaks _ (Need _ _ _ :: _) => apply sk_need; [solve [message]|intros ?] end
    | match goal with |- speaks _ (Reject _ :: _) => apply sk_reject; apply parse_cause_at; message end
    | match goal with |- speaks _ (Sub _ :: _) => apply sk_sub; intros ? end
    | match goal with |- speaks _ (TargetThen _ :: _) => apply sk_target; intros ? ? end
    | match goal with |- speaks _ (List.app _ _) => progress cbn [app] end
    | match goal with |- speaks _ (if ?x then _ else _) => destruct x eqn:? end
    | match goal with |- speaks _ ((if ?x then _ else _) :: _) => destruct x eqn:? end
    | match goal with |- speaks _ [Need _ _ (SpecReject.closing _ _)] =>
        apply sk_need; [auto using closing_message, closing_message'|intros ?] end
    | match goal with |- speaks _ ((match ?x with _ => _ end ++ _)%list) => destruct x eqn:? end
    | match goal with |- speaks _ ((if ?x then _ else _) ++ _)%list => destruct x eqn:? end ].

Lemma table_speaks : forall trailing ending b p i, speaks i (steps_of trailing ending b p).
Proof.
  intros trailing ending b p i.
  destruct p as [[]| | | | | | |]; cbn [steps_of]; speak.
  all: exfalso; destruct i as [|t i]; [discriminate|]; cbn [ahead existsb] in *;
    repeat match goal with H : _ || false = _ |- _ => rewrite orb_false_r in H end;
    repeat match goal with H : tt_eqb _ _ = false |- _ => rewrite H in * end; discriminate.
Qed.
Lemma rejects_speak : forall trailing ending b st i f, rejects trailing ending b st i f ->
  speaks i st -> parse_cause (f_cause f).
Proof.
  intros trailing ending b st i f H. induction H; intros K; inversion K; subst; auto using table_speaks.
  apply parse_cause_at. assumption.
Qed.
Lemma reports_speak : forall trailing ending b toks cs, reports trailing ending b toks cs ->
  Forall parse_cause cs.
Proof.
  intros trailing ending b toks cs H. induction H; auto. constructor; auto.
  eapply rejects_speak; eauto using table_speaks.
Qed.
Lemma program_errors_speak : forall trailing toks cs, program_errors trailing toks cs -> Forall parse_cause cs.
Proof.
  intros trailing toks cs H. unfold program_errors in H.
  destruct (before_end toks); [eapply reports_speak; eauto|subst; auto].
Qed.
Lemma expression_error_speaks : forall trailing toks c, expression_error trailing toks c -> parse_cause c.
Proof.
  intros trailing toks c (t & f & _ & R & ->). eapply rejects_speak; [exact R|]. speak.
Qed.

(** ** Resolver *)
Lemma fault_speaks : forall G cc e, fault G cc = Some (Error e) -> resolve_cause e.
Proof.
  assert (R : forall l x m, existsb (String.eqb m) resolve_messages = true -> resolve_cause (cause_at l x m)).
  { intros l x m H. split; [discriminate|]. apply existsb_exists in H. destruct H as (y & I & E).
    apply String.eqb_eq in E. now subst. }
  intros G [c k] e0; destruct k; cbn [fault]; unfold introduce, find_name, no_room; intros H;
    repeat match type of H with
    | context [match ?x with _ => _ end] => destruct x
    end; try discriminate H; injection H as <-; apply R; vm_compute; reflexivity.
Qed.
Lemma program_causes_speak : forall l w cs w', program_causes w l = Some (cs, w') -> Forall resolve_cause cs.
Proof.
  assert (F : forall l w e w', run_checks w l = (Some (Error e), w') -> resolve_cause e).
  { induction l as [|cc l IH]; intros w e w' H; cbn [run_checks] in H; [discriminate|].
    destruct (fault (w_table w) cc) as [f|] eqn:E; [|eauto]. injection H as -> _. eapply fault_speaks; eauto. }
  induction l as [|st l IH]; intros w cs w' H; cbn [program_causes] in H; [injection H as <- <-; auto|].
  destruct (run_checks w (checks (top w) st)) as [[[e|]|] w1] eqn:E; try discriminate H.
  - destruct (program_causes w1 l) as [[es w2]|] eqn:E2; [|discriminate H]. injection H as <- <-.
    constructor; eauto.
  - eauto.
Qed.
Lemma resolve_speaks : forall l cs, resolve l = Done (Err cs) -> Forall resolve_cause cs.
Proof.
  intros l cs H. assert (X := resolve_exact l).
  destruct (program_causes new_world l) as [[[|c es] w]|] eqn:E.
  - destruct X as [l' X]. congruence.
  - replace cs with (c :: es) by congruence. eapply program_causes_speak; eauto.
  - destruct X as [w X]. congruence.
Qed.

Lemma session_speaks : forall h s p cs, history h s -> In (p, Err cs) h -> Forall resolve_cause cs.
Proof.
  intros h s p cs H I. assert (X := proj2 (session_exact (map fst h) (map (fun p => errors_of (snd p)) h))).
  destruct X as [w X]; [eauto|]. clear H.
  assert (G : forall (h : list (list stmt * result (list stmt) parse_error)) w ess w', session_causes w (map fst h) = Some (ess, w') ->
    ess = map (fun p => errors_of (snd p)) h -> In (p, Err cs) h -> Forall resolve_cause cs).
  { clear. induction h as [|[q r] h IH]; intros w ess w' X E I; [contradiction I|].
    cbn [map fst session_causes] in X. destruct (program_causes w q) as [[es w1]|] eqn:P; [|discriminate X].
    destruct (session_causes w1 (map fst h)) as [[ess2 w2]|] eqn:Q; [|discriminate X].
    injection X as <- <-. cbn [map snd] in E. injection E as E1 E2. destruct I as [I|I]; [|eauto].
    injection I as -> ->. cbn in E1. subst. eapply program_causes_speak; eauto. }
  eapply G; eauto.
Qed.

(** ** Telling errors apart by their text *)
(** At most one newline, at the end *)
Definition tidy (m : string) : Prop :=
  no_newline m = true \/ exists m', m = m' ++ s_nl /\ no_newline m' = true.
Lemma tidy_inj : forall m m' r r', tidy m -> tidy m' ->
  (forall x, r <> s_nl ++ x) -> (forall x, r' <> s_nl ++ x) ->
  m ++ s_nl ++ s_nl ++ r = m' ++ s_nl ++ s_nl ++ r' -> m = m' /\ r = r'.
Proof.
  assert (A : forall a b x y, no_newline a = true -> no_newline b = true ->
    a ++ s_nl ++ x = b ++ s_nl ++ y -> a = b /\ x = y).
  { intros a b x y Na Nb E. unfold s_nl in E. cbn [append] in E.
    apply (all_split (fun c => negb (Ascii.eqb c c_nl))) in E; auto. tauto. }
  intros m m' r r' [T|(m1 & -> & T)] [T'|(m2 & -> & T')] R R' E.
  - apply A in E; auto. destruct E as (-> & E). injection E as ->. auto.
  - norm. apply A in E; auto. destruct E as (_ & E). unfold s_nl in E. cbn [append] in E. injection E as E.
    exfalso. eapply R. unfold s_nl. cbn [append]. exact E.
  - norm. apply A in E; auto. destruct E as (_ & E). unfold s_nl in E. cbn [append] in E. injection E as E.
    exfalso. eapply R'. unfold s_nl. cbn [append]. symmetry. exact E.
  - norm. apply A in E; auto. destruct E as (-> & E). unfold s_nl in E. cbn [append] in E. injection E as ->. auto.
Qed.
Lemma paragraphs_start : forall F cs x, cat (map (error_paragraph F) cs) <> s_nl ++ x.
Proof.
  intros F [|c cs] x E; [discriminate E|]. cbn [map cat] in E. unfold error_paragraph, SpecDriver.position in E.
  assert (D := decimal_all (loc_line (c_loc c))).
  destruct (decimal (loc_line (c_loc c))) as [|a d]; cbn [append] in E; injection E as E1 E2.
  - discriminate E1.
  - subst a. discriminate D.
Qed.
Lemma paragraphs_tidy : forall F cs cs', quotes (f_str F) ->
  Forall (fun c => tidy (c_message c)) cs -> Forall (fun c => tidy (c_message c)) cs' ->
  cat (map (error_paragraph F) cs) = cat (map (error_paragraph F) cs') -> cs = cs'.
Proof.
  intros F cs cs' Q. revert cs'. induction cs as [|c cs IH]; destruct cs' as [|c' cs']; intros N N' E; auto.
  - exfalso. cbn [map cat] in E. unfold error_paragraph, SpecDriver.position in E.
    destruct (decimal (loc_line (c_loc c'))); discriminate E.
  - exfalso. cbn [map cat] in E. unfold error_paragraph, SpecDriver.position in E.
    destruct (decimal (loc_line (c_loc c))); discriminate E.
  - cbn [map cat] in E. apply paragraph_code in E; auto. destruct c as [l t m], c' as [l' t' m'].
    cbn [c_loc c_token c_message] in *. destruct E as (-> & -> & E).
    inversion N; inversion N'; subst. cbn [c_message] in *.
    apply tidy_inj in E; auto using paragraphs_start. destruct E as (-> & E). f_equal. auto.
Qed.

Lemma no_newline_has : forall s, no_newline s = negb (has_newline s).
Proof.
  induction s as [|c s IH]; auto. unfold no_newline in *. cbn [all has_newline]. rewrite IH, negb_orb. reflexivity.
Qed.
Lemma no_newline_app : forall a b, no_newline (a ++ b) = (no_newline a && no_newline b)%bool.
Proof.
  unfold no_newline. induction a as [|c a IH]; intros b; cbn [append all]; auto. rewrite IH. apply andb_assoc.
Qed.
Lemma listed_tidy : forall l m, forallb no_newline l = true -> In m l -> tidy m.
Proof. intros l m H I. left. rewrite forallb_forall in H. auto. Qed.
Lemma scan_tidy : forall gs c, breaks_lines gs -> scan_cause gs c -> tidy (c_message c).
Proof.
  intros gs c B [_ [I|(g & I & ->)]]; [apply (listed_tidy scan_messages); auto; reflexivity|].
  destruct (has_newline g) eqn:H.
  - right. destruct (B g I H) as [->| ->].
    + exists "Unexpected token: ". split; reflexivity.
    + exists ("Unexpected token: " ++ s_cr). split; reflexivity.
  - left. rewrite no_newline_app, (no_newline_has g), H. reflexivity.
Qed.
Lemma parse_tidy : forall c, parse_cause c -> tidy (c_message c).
Proof. intros c [_ I]. apply (listed_tidy parse_messages); auto. Qed.
Lemma resolve_tidy : forall c, resolve_cause c -> tidy (c_message c).
Proof. intros c [_ I]. apply (listed_tidy resolve_messages); auto. Qed.

(** ** The whole front end *)
Section Text.
Variable U : unicode.
Hypothesis Sn : sane U.

Lemma front_speaks : forall oc trailing gs cs, valid_source gs -> front U oc trailing gs = Done (Err cs) ->
  (scan_tokens U gs = Done (Err cs) /\ Forall (scan_cause gs) cs) \/ Forall parse_cause cs.
Proof.
  intros oc trailing gs cs V H. assert (N := front_errors U Sn oc trailing gs cs V H).
  rewrite front_scans in H. unfold parse_with in H.
  destruct (scan_tokens U gs) as [[toks|cs']| | |] eqn:T; cbn [obind] in H; try discriminate H.
  - right. eapply program_errors_speak, parse_tokens_errors; eauto. eapply source_ok; eauto.
  - left. injection H as ->. split; auto. apply (scan_causes U Sn); auto.
Qed.
Lemma parse_speaks : forall oc gs toks cs, valid_source gs -> scan_tokens U gs = Done (Ok toks) ->
  parse U oc gs = Done (Err cs) \/ parse_repl_line U oc gs = Done (Err cs) \/
  (parse_expression U oc gs = Done (Err cs) /\ length toks <> 1) -> Forall parse_cause cs.
Proof.
  intros oc gs toks cs V T [H|[H|[H N]]].
  - destruct (front_speaks oc false gs cs V H) as [[X _]|X]; [congruence|exact X].
  - destruct (front_speaks oc true gs cs V H) as [[X _]|X]; [congruence|exact X].
  - apply (parse_expression_source_errors U Sn gs V toks T oc cs N) in H. destruct H as (c & -> & X).
    constructor; auto. eapply expression_error_speaks; eauto.
Qed.
Lemma fails_tidy : forall oc gs cs, valid_source gs -> breaks_lines gs -> fails U oc gs cs ->
  Forall (fun c => tidy (c_message c)) cs.
Proof.
  intros oc gs cs V B [H|(l & _ & H)].
  - destruct (front_speaks oc false gs cs V H) as [[_ A]|A]; refine (Forall_impl _ _ A).
    + intros c. now apply scan_tidy.
    + exact parse_tidy.
  - refine (Forall_impl _ resolve_tidy _). eapply resolve_speaks; eauto.
Qed.
Lemma fails_thrown : forall oc F gs t, valid_source gs -> parse_string U oc F gs = Done (Err t) ->
  exists cs, fails U oc gs cs /\ t = cat (map (error_paragraph F) cs).
Proof.
  intros oc F gs t V H.
  destruct (wasm_fate U oc F Sn gs V) as [(l & _ & E)|[(cs & C & _ & E)|[(w & _ & E)|[_ E]]]];
    rewrite E in H; try discriminate H. injection H as <-. eauto.
Qed.
Lemma thrown_determines : forall oc F gs gs' t, quotes (f_str F) ->
  valid_source gs -> valid_source gs' -> breaks_lines gs -> breaks_lines gs' ->
  parse_string U oc F gs = Done (Err t) -> parse_string U oc F gs' = Done (Err t) ->
  exists cs, fails U oc gs cs /\ fails U oc gs' cs.
Proof.
  intros oc F gs gs' t Q V V' B B' H H'. apply fails_thrown in H, H'; auto.
  destruct H as (cs & C & ->), H' as (cs' & C' & E). exists cs. split; auto.
  now rewrite (paragraphs_tidy F cs cs' Q (fails_tidy _ _ _ V B C) (fails_tidy _ _ _ V' B' C') E).
Qed.
(** The page shows a tree or an error. *)
Lemma page_determines : forall oc F gs gs' cs, quotes (f_str F) ->
  valid_source gs -> valid_source gs' -> breaks_lines gs -> breaks_lines gs' ->
  fails U oc gs cs -> on_change U oc F gs = on_change U oc F gs' -> fails U oc gs' cs.
Proof.
  intros oc F gs gs' cs Q V V' B B' C E.
  assert (S1 : forall gs cs, valid_source gs -> fails U oc gs cs -> on_change U oc F gs = Done (cat (map (error_paragraph F) cs))).
  { clear. intros gs cs V [H|(l & H & H2)]; unfold on_change, parse_string; rewrite H; cbn [obind].
    - now rewrite display_error_eq.
    - rewrite H2. cbn [obind]. now rewrite display_error_eq. }
  rewrite (S1 gs cs V C) in E.
  destruct (wasm_fate U oc F Sn gs' V') as [(l & R & X)|[(cs' & C' & _ & X)|[(w & _ & X)|[_ X]]]].
  - exfalso. assert (P := page_error U oc F Sn gs' (cat (map (error_paragraph F) cs)) V').
    destruct P as [_ P]; [now symmetry|]. destruct P as [r P]; [eauto|].
    exact (paragraphs_start F cs r P).
  - rewrite (S1 gs' cs' V' C') in E. injection E as E.
    now rewrite (paragraphs_tidy F cs cs' Q (fails_tidy _ _ _ V B C) (fails_tidy _ _ _ V' B' C') E).
  - unfold on_change in E. rewrite X in E. discriminate E.
  - unfold on_change in E. rewrite X in E. discriminate E.
Qed.

(** *** One error on the command line *)
Fixpoint occurs (p s : string) : bool :=
  String.prefix p s || match s with "" => false | String _ r => occurs p r end.
Lemma contains_occurs : forall p s, contains p s -> occurs p s = true.
Proof.
  intros p s (a & b & ->). induction a as [|c a IH]; cbn [append].
  - assert (H : String.prefix p (p ++ b) = true).
    { induction p as [|c p IH]; [destruct b; reflexivity|]. cbn. destruct (Ascii.ascii_dec c c); [exact IH|congruence]. }
    destruct (p ++ b); cbn [occurs]; rewrite H; reflexivity.
  - cbn [occurs]. rewrite IH. apply orb_true_r.
Qed.
Definition clear (c : cause) : Prop := c_token c = None \/ ~ contains "': " (c_message c).
Lemma listed_clear : forall l m, forallb (fun m => negb (occurs "': " m)) l = true -> In m l -> ~ contains "': " m.
Proof.
  intros l m H I C. rewrite forallb_forall in H. specialize (H m I). apply contains_occurs in C. rewrite C in H. discriminate.
Qed.
Lemma fails_clear : forall oc gs cs, valid_source gs -> fails U oc gs cs -> Forall clear cs.
Proof.
  intros oc gs cs V [H|(l & _ & H)].
  - destruct (front_speaks oc false gs cs V H) as [[_ A]|A]; refine (Forall_impl _ _ A).
    + intros c [N _]. now left.
    + intros c [_ I]. right. apply (listed_clear parse_messages); auto.
  - refine (Forall_impl _ _ (resolve_speaks l cs H)). intros c [_ I]. right. apply (listed_clear resolve_messages); auto.
Qed.
Lemma clear_inj : forall c c', clear c -> clear c' -> error_line c = error_line c' -> c = c'.
Proof.
  intros c c' C C' E. destruct (error_line_place c c' E) as [L [N N']].
  destruct C as [C|C], C' as [C'|C']; [| | |now apply error_line_inj].
  all: assert (A : c_token c = None) by auto; assert (B : c_token c' = None) by auto;
    assert (E2 : error_line c ++ "" = error_line c' ++ "") by congruence;
    apply error_line_position in E2; rewrite A, B, !app_nil_s in E2; destruct E2 as [_ E2]; apply app_cancel_r in E2;
    destruct c, c'; cbn in *; congruence.
Qed.
Lemma one_error_determines : forall oc F name name' gs gs' c c', valid_source gs -> valid_source gs' ->
  fails U oc gs [c] -> fails U oc gs' [c'] ->
  p_err (main_file U oc F name (Contents gs)) = p_err (main_file U oc F name' (Contents gs')) -> c = c'.
Proof.
  intros oc F name name' gs gs' c c' V V' H H' E.
  assert (X : forall name gs c, valid_source gs -> fails U oc gs [c] ->
    p_err (main_file U oc F name (Contents gs)) = error_line c).
  { clear - Sn. intros name gs c V H.
    assert (K := proj2 (status_65 U oc F Sn name gs V) (ex_intro _ _ H)).
    destruct (file_fate U oc F Sn name gs V) as [(l & _ & P)|[(cs & H' & _ & P)|[(w & _ & P)|[_ P]]]];
      rewrite P in K |- *; try discriminate K. cbn [p_err].
    assert (cs = [c]) as ->.
    { destruct H as [H|(l & H & H2)], H' as [H'|(l' & H' & H2')]; try congruence.
    }
    cbn [map cat]. apply app_nil_s. }
  rewrite (X name gs c V H), (X name' gs' c' V' H') in E.
  assert (C := fails_clear oc gs [c] V H). assert (C' := fails_clear oc gs' [c'] V' H').
  inversion C; inversion C'; subst. now apply clear_inj.
Qed.
End Text.

(** ** Standard error does not determine the errors *)
Definition forged_key : string := s_quote ++ "a': Duplicate key in literal map." ++ s_nl ++ "[line 6:2] Error at 'b" ++ s_quote.
Definition one_error : list string := ["print {"; forged_key ++ ": 1,"; "  " ++ forged_key ++ ": 2}"].
Definition two_errors : list string := ["print {a: 1,"; ""; ""; "  a: 2}"; "print {b: 1,"; " b: 2}"].
Definition text (l : list string) : list string := segment (lns l ++ s_nl).
Definition check_breaks_b (gs : list string) : bool :=
  forallb (fun g => negb (has_newline g) || String.eqb g s_nl || String.eqb g s_crlf) gs.
Lemma check_breaks : forall gs, check_breaks_b gs = true -> breaks_lines gs.
Proof.
  intros gs H g I N. unfold check_breaks_b in H. rewrite forallb_forall in H. specialize (H g I). rewrite N in H. cbn in H.
  apply orb_prop in H. destruct H as [H|H]; apply String.eqb_eq in H; auto.
Qed.
Lemma standard_error_refuted :
  ~ (forall U oc F name gs gs' cs cs', sane U -> quotes (f_str F) ->
     valid_source gs -> valid_source gs' -> breaks_lines gs -> breaks_lines gs' ->
     fails U oc gs cs -> fails U oc gs' cs' ->
     p_err (main_file U oc F name (Contents gs)) = p_err (main_file U oc F name (Contents gs')) ->
     length cs = length cs').
Proof.
  intros H.
  destruct (parse sample_unicode true (text one_error)) as [[|cs]| | |] eqn:A; try (vm_compute in A; discriminate A).
  destruct (parse sample_unicode true (text two_errors)) as [[|cs']| | |] eqn:B; try (vm_compute in B; discriminate B).
  assert (E : length cs = length cs').
  { apply (H sample_unicode true sample_formats "a" (text one_error) (text two_errors) cs cs').
    - apply sample_sane.
    - apply sample_quotes.
    - apply check_valid. vm_compute. reflexivity.
    - apply check_valid. vm_compute. reflexivity.
    - apply check_breaks. vm_compute. reflexivity.
    - apply check_breaks. vm_compute. reflexivity.
    - left. exact A.
    - left. exact B.
    - vm_compute. reflexivity. }
  vm_compute in A, B. injection A as <-. injection B as <-. discriminate E.
Qed.
