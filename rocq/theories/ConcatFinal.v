(** Parsing one program after the other. *)
From Verif Require Import Base F64 Token Ast Scanner Parser SpecLex SpecLayout SpecScan SpecParse ParseRun SpecPlace SpecGrammar
  Segment SpecReject SpecConcat ScanLayout ScanPairs ScanErrors ScanUnique ScanFinal ParseFirst ParseComplete ParseSound ParseTop ParseProps ParseRepl RejectUnique
  RejectTop RejectFinal Relabel RelabelErrors RelabelParse Concat ConcatScan.
From Verif Require Import TestsParser.
From Coq Require Import Lia.

Lemma words_app i j i' j' : words i i' -> words j j' -> words (i ++ j) (i' ++ j').
Proof. apply Forall2_app. Qed.
Lemma outdents_words o : forall o', outdents o -> outdents o' -> length o = length o' -> words o o'.
Proof.
  induction o as [|x o IH]; intros [|y o'] H H' E; try discriminate; constructor.
  - inversion H as [|? ? (A & B & C) _]; inversion H' as [|? ? (A' & B' & C') _]; subst.
    repeat split; try congruence. rewrite A. intros [D|[D|[]]]; discriminate.
  - inversion H; inversion H'; subst. apply IH; auto.
Qed.
Lemma declares_words trailing b i l r : declares trailing b i l r -> forall j, words i j ->
  exists l' s, declares trailing b j l' s /\ words r s /\ map unplaced l = map unplaced l' /\
    exists p, j = p ++ s.
Proof.
  induction 1 as [i|i st r1 l r D _ IH]; intros j W.
  - exists nil, j. repeat split; auto; [constructor|]. now exists nil.
  - destruct (derives_words _ _ _ _ _ _ D j Declaration W eq_refl) as (v & s & D' & W' & E).
    assert (S := derives_suffix _ _ _ _ _ _ D'). shape.
    destruct (IH _ W') as (l' & s' & D2 & W2 & E2 & p & ->). destruct S as [q ->].
    match goal with X : derives _ _ _ _ (VS ?x) _ |- _ => exists (x :: l'), s' end. split; [econstructor; eauto|]. split; auto. split; [cbn; congruence|].
    exists (q ++ p). now rewrite app_assoc.
Qed.
Lemma words_length i j : words i j -> length i = length j.
Proof. induction 1; cbn; auto. Qed.
Lemma suffix_same (p s q r : list token) : p ++ s = q ++ r -> length s = length r -> s = r.
Proof.
  revert q. induction p as [|x p IH]; intros q E Le.
  - destruct q as [|y q]; [exact E|]. apply (f_equal (@length token)) in E. cbn in E. rewrite app_length in E. lia.
  - destruct q as [|y q].
    + apply (f_equal (@length token)) in E. cbn in E. rewrite app_length in E. lia.
    + injection E as -> E. eauto.
Qed.
Lemma reports_declares trailing t b i l r cs : declares trailing b i l r -> reports trailing t b r cs -> reports trailing t b i cs.
Proof. induction 1; intros H'; auto. eapply rp_declaration; eauto. Qed.
Lemma before_end_app p : forall x y r, before_end (p ++ x :: y :: r) = before_end (x :: y :: r).
Proof.
  induction p as [|a p IH]; intros x y r; auto. cbn [app]. rewrite <- IH.
  destruct p as [|c [|d p]]; reflexivity.
Qed.

Section Tokens.
Variables (trailing oc : bool).
Variables (A A' tb tb' : list token) (e : token) (la : list stmt).
Hypothesis Ka : tokens_ok (A ++ [e]).
Hypothesis Kb : tokens_ok tb.
Hypothesis Kc : tokens_ok (A' ++ tb').
Hypothesis WA : words A A'.
Hypothesis WB : map payload tb = map payload tb'.
Hypothesis Pa : parse_tokens (A ++ [e]) false oc = Done (Ok la).
Hypothesis Fr : fresh_start tb.
Hypothesis En : ~ ends_in_var la \/ ends_line (A ++ [e]).

Lemma declared : exists l', declares trailing false (A' ++ tb') l' tb' /\ map unplaced la = map unplaced l'.
Proof.
  assert (P := Pa). apply parse_tokens_exact in P; auto. destruct P as (eof & K & D).
  assert (T : ends_eof (A ++ [e])).
  { assert (S := derives_suffix _ _ _ _ _ _ D). destruct S as [p S].
    exists A, e. split; auto. apply app_inj_tail in S. destruct S as [_ ->]. exact K. }
  assert (X := program_after trailing false _ la _ D T (ex_intro _ eof (conj eq_refl K)) tb Fr En).
  rewrite ext_last in X.
  destruct (declares_words _ _ _ _ _ X (A' ++ tb')) as (l' & s & D' & W & E & p & Q).
  { apply words_app; auto. now apply alike_words. }
  exists l'. split; auto. replace tb' with s at 2; auto.
  symmetry in Q. apply (suffix_same _ _ _ _ Q). rewrite <- (words_length _ _ W).
  rewrite <- (map_length payload tb), WB. apply map_length.
Qed.
Lemma tokens_concat : goes_on la (parse_tokens tb trailing oc) (parse_tokens (A' ++ tb') trailing oc).
Proof.
  destruct declared as (l' & D & E).
  destruct (parse_tokens_spec tb trailing oc Kb) as ([lb|cs] & P & S); rewrite P.
  - destruct S as (eof & K & Db).
    destruct (derives_words _ _ _ _ _ _ Db tb' Program (alike_words _ _ WB) eq_refl) as (v' & s & Db' & W & X).
    shape. apply words_cons in W. destruct W as (u & s' & -> & (T & _) & W). inversion W; subst.
    assert (R : parse_tokens (A' ++ tb') trailing oc = Done (Ok (l' ++ l))).
    { apply parse_tokens_exact; auto. exists u. split; [congruence|]. eapply program_declares; eauto. }
    rewrite R. cbn. rewrite !map_app. congruence.
  - destruct S as [S _]. apply parse_tokens_errors in P; auto.
    unfold program_errors in P. destruct (before_end tb) as [x|] eqn:B; [|contradiction].
    assert (B' := before_end_alike _ _ WB). rewrite B in B'. destruct (before_end tb') as [y|] eqn:BE; [|contradiction].
    destruct (reports_alike trailing x y B' _ _ _ P tb' WB) as (cs' & R & M).
    assert (R' : parse_tokens (A' ++ tb') trailing oc = Done (Err cs')).
    { apply (parse_tokens_errors _ _ oc); auto; [intros ->; inversion M; subst; now apply S|].
      unfold program_errors. destruct tb' as [|u [|v q]]; try discriminate BE. rewrite before_end_app, BE.
      eapply reports_declares; eauto. }
    rewrite R'. exact M.
Qed.
End Tokens.

Section Sources.
Variable U : unicode.
Hypothesis Sn : sane U.
Variables a b : list string.
Hypothesis V : valid_source a.
Hypothesis V' : valid_source b.
Variables es es' : list elem.
Hypothesis L : lexes U a es.
Hypothesis W : whole_lines es.
Hypothesis L' : lexes U b es'.
Hypothesis F : flush (source_lines es').
Variables (oc : bool) (ta : list token) (la : list stmt).
Hypothesis S : scan_tokens U a = Done (Ok ta).
Hypothesis P : parse U oc a = Done (Ok la).
Hypothesis Fr : forall tb, scan_tokens U b = Done (Ok tb) -> fresh_start tb.
Hypothesis En : ~ ends_in_var la \/ ends_line ta.

Lemma sources_concat trailing :
  goes_on la (parse_with U (fun toks => parse_tokens toks trailing oc) b)
             (parse_with U (fun toks => parse_tokens toks trailing oc) (a ++ b)).
Proof.
  assert (VV : valid_source (a ++ b)) by (apply Forall_app; auto).
  assert (Ka := source_ok U Sn a V ta S).
  destruct (scan_concat U Sn a b V V' es es' L W L' F ta S) as (t & o & e & E & O & K & H).
  unfold parse, parse_with in P. rewrite S in P. cbn [obind] in P. subst ta.
  unfold parse_with. destruct (scan_tokens U b) as [[tb|cs]| | |] eqn:Eb; try contradiction.
  - destruct H as (o' & tb' & Ec & Le & O' & Al). rewrite Ec. cbn [obind].
    assert (Kb := source_ok U Sn b V' tb Eb). assert (Kc := source_ok U Sn _ VV _ Ec).
    rewrite !app_assoc in *. eapply tokens_concat; eauto.
    apply words_app; [apply words_refl|now apply outdents_words].
  - destruct H as (cs' & Ec & M). rewrite Ec. cbn.
    apply (same_scan_errors U Sn b (a ++ b)); auto; rewrite Eb, Ec; exact M.
  - rewrite H. exact I.
Qed.
Lemma parse_concat : goes_on la (parse U oc b) (parse U oc (a ++ b)) /\
  goes_on la (parse_repl_line U oc b) (parse_repl_line U oc (a ++ b)).
Proof. split; apply sources_concat. Qed.
End Sources.

(** ** Examples *)
Lemma fresh_by toks : match toks with
  | t :: r => existsb (tt_eqb (t_type t)) [Colon; RightBrace; Else; Equal; Terminator; Identifier; TString] = false
  | nil => True end -> fresh_start toks.
Proof.
  destruct toks as [|t r]; intros H; split.
  - exact (fun x => x).
  - intros (? & ? & ? & ? & _). discriminate.
  - intros I. enough (true = false) by discriminate. rewrite <- H. symmetry. apply existsb_exists.
    exists (t_type t). split; [cbn in *; intuition congruence|now apply tt_eqb_iff].
  - intros (t' & u & r' & E & I & _). injection E as <- ->. enough (true = false) by discriminate. rewrite <- H.
    symmetry. apply existsb_exists. exists (t_type t). split; [cbn in *; intuition congruence|now apply tt_eqb_iff].
Qed.

Definition text_lines (l : list string) : string := String.append (lns l) s_nl.
Definition tokens_in (s : string) : list token :=
  match scan_tokens sample_unicode (segment s) with Done (Ok t) => t | _ => nil end.
Definition tree_in (s : string) : list stmt :=
  match parse sample_unicode true (segment s) with Done (Ok t) => t | _ => nil end.
Lemma any_start_refuted : ~ forall U oc a es ta la b es', sane U -> valid_source a -> valid_source b ->
  lexes U a es -> whole_lines es -> lexes U b es' -> flush (source_lines es') ->
  scan_tokens U a = Done (Ok ta) -> parse U oc a = Done (Ok la) ->
  ~ ends_in_var la -> ends_line ta ->
  goes_on la (parse U oc b) (parse U oc (a ++ b)).
Proof.
  intros H. set (x := text_lines ["a: 1"]%string). set (y := text_lines ["b: 2"]%string).
  refine (_ (H sample_unicode true (segment x) (elements x) (tokens_in x) (tree_in x) (segment y) (elements y) sample_sane _ _ (elements_lex _) _ (elements_lex _) _
    _ _ _ _)).
  - vm_compute. discriminate.
  - apply check_valid. vm_compute. reflexivity.
  - apply check_valid. vm_compute. reflexivity.
  - right. exists (removelast (elements x)). vm_compute. reflexivity.
  - vm_compute. reflexivity.
  - vm_compute. reflexivity.
  - vm_compute. reflexivity.
  - intros (l & n & s & e & p & E). vm_compute in E. destruct l as [|? [|]]; discriminate.
  - vm_compute. eexists [_; _; _], _, _. split; reflexivity.
Qed.
Lemma any_end_refuted : ~ forall U oc a es ta la b es', sane U -> valid_source a -> valid_source b ->
  lexes U a es -> whole_lines es -> lexes U b es' -> flush (source_lines es') ->
  scan_tokens U a = Done (Ok ta) -> parse U oc a = Done (Ok la) ->
  (forall tb, scan_tokens U b = Done (Ok tb) -> fresh_start tb) ->
  goes_on la (parse U oc b) (parse U oc (a ++ b)).
Proof.
  intros H. set (x := text_lines ["var x = {} fun()"; "  1"]%string). set (y := text_lines ["2"]%string).
  refine (_ (H sample_unicode true (segment x) (elements x) (tokens_in x) (tree_in x) (segment y) (elements y) sample_sane _ _ (elements_lex _) _ (elements_lex _) _
    _ _ _)).
  - vm_compute. discriminate.
  - apply check_valid. vm_compute. reflexivity.
  - apply check_valid. vm_compute. reflexivity.
  - right. exists (removelast (elements x)). vm_compute. reflexivity.
  - vm_compute. reflexivity.
  - vm_compute. reflexivity.
  - vm_compute. reflexivity.
  - intros tb E. vm_compute in E. injection E as <-. apply fresh_by. vm_compute. reflexivity.
Qed.
