(** Every tree can be written as text that parses to it again. *)
From Coq Require Import Lia ZArith Floats.SpecFloat.
From Verif Require Import Base F64 Token Ast Scanner Parser SpecNumber SpecLex SpecLayout SpecScan SpecTree SpecPrint SpecPlace SpecWrite
  NumberFacts StrFacts ScanProps ScanErrors ScanFinal ScanSpaces Relabel RelabelParse ParseRun ParseProps ParseFinal RejectFinal
  WriteScan WriteTree WriteNumber Segment.

Lemma chars_app a b : chars (String.append a b) = chars a ++ chars b.
Proof. unfold chars. induction a as [|c a IH]; cbn; [reflexivity|]. now f_equal. Qed.
Lemma concat_chars s : sconcat (chars s) = s.
Proof. unfold chars. induction s as [|c s IH]; cbn; [reflexivity|]. now f_equal. Qed.
Lemma all_chars_cons p c s : all_chars p (String c s) = p (N_of_ascii c) && all_chars p s.
Proof. reflexivity. Qed.
Lemma valid_chars s : all_chars (fun c => c <? 128)%N s = true -> valid_source (chars s).
Proof.
  induction s as [|c s IH]; [constructor|]. rewrite all_chars_cons. intros H. apply andb_prop in H. destruct H as [A B].
  change (Forall starts_char (String c "" :: chars s)). constructor; [|exact (IH B)].
  cbn. left. now apply N.ltb_lt.
Qed.
Lemma all_chars_impl (p q : N -> bool) s : (forall c, (c < 256)%N -> p c = true -> q c = true) ->
  all_chars p s = true -> all_chars q s = true.
Proof.
  intros I. induction s as [|c s IH]; [reflexivity|]. rewrite !all_chars_cons. intros H. apply andb_prop in H.
  destruct H as [A B]. rewrite (I _ (N_ascii_bounded c) A). auto.
Qed.

Section Ascii.
Variable U : unicode.
Hypothesis KA : knows_ascii U.
Lemma knows_sane : sane U.
Proof. unfold sane. rewrite (proj2 (KA 10%N eq_refl)). reflexivity. Qed.
Lemma knows_space : u_alphanumeric U 32%N = false.
Proof. rewrite (proj2 (KA 32%N eq_refl)). reflexivity. Qed.
Lemma knows_paren : u_alphanumeric U 40%N = false.
Proof. rewrite (proj2 (KA 40%N eq_refl)). reflexivity. Qed.
Lemma knows_quote : u_alphanumeric U 34%N = false.
Proof. rewrite (proj2 (KA 34%N eq_refl)). reflexivity. Qed.

Definition word_char (c : N) : bool := letter c || digit c || (c =? 95)%N.
Definition first_word_char (c : N) : bool := letter c || (c =? 95)%N.
Lemma word_char_small c : word_char c = true -> (c < 128)%N.
Proof.
  unfold word_char, letter, digit. intros H.
  repeat (apply orb_prop in H; destruct H as [H|H]);
    repeat (apply andb_prop in H; destruct H as [? H]); rewrite ?N.leb_le, ?N.eqb_eq in *; lia.
Qed.
Lemma first_is_word c : first_word_char c = true -> word_char c = true.
Proof. unfold first_word_char, word_char. intros H. apply orb_prop in H. destruct H as [-> | ->]; auto. now rewrite orb_true_r. Qed.
Lemma continues c : word_char (N_of_ascii c) = true -> continues_word U (String c "").
Proof.
  intros H. pose proof (word_char_small _ H) as L. exists (N_of_ascii c). split.
  - cbn. apply N.ltb_lt in L. now rewrite L.
  - unfold word_char in H. apply orb_prop in H. rewrite (proj2 (KA _ L)). rewrite N.eqb_eq in H. tauto.
Qed.
Lemma starts_it c : first_word_char (N_of_ascii c) = true ->
  starts_word U (String c "") /\ ~ In (String c "") special /\ ~ digit_cluster (String c "").
Proof.
  intros H. pose proof (word_char_small _ (first_is_word _ H)) as L. split; [|split].
  - exists (N_of_ascii c). split.
    + cbn. apply N.ltb_lt in L. now rewrite L.
    + unfold first_word_char in H. apply orb_prop in H. rewrite (proj1 (KA _ L)). rewrite N.eqb_eq in H. tauto.
  - intros I. cbn in I. repeat (destruct I as [I|I]; [injection I as <-; discriminate H|]). contradiction.
  - intros I. cbn in I. repeat (destruct I as [I|I]; [injection I as <-; discriminate H|]). contradiction.
Qed.
Lemma word_text c r k : first_word_char (N_of_ascii c) = true -> all_chars word_char r = true ->
  word_kind (String c r) k -> lexeme U (Tok k (chars (String c r)) None None) [" "] /\ valid_source (chars (String c r)).
Proof.
  intros A B W. destruct (starts_it c A) as (S1 & S2 & S3). split.
  - change (chars (String c r)) with (String c "" :: chars r). apply LWord; auto.
    + clear - B KA. induction r as [|d r IH]; [constructor|]. rewrite all_chars_cons in B. apply andb_prop in B.
      destruct B. constructor; auto. now apply continues.
    + apply space_no_word. exact knows_space.
    + change (String c "" :: chars r) with (chars (String c r)). now rewrite concat_chars.
  - apply valid_chars. rewrite all_chars_cons. apply andb_true_iff. split.
    + apply N.ltb_lt, word_char_small. now apply first_is_word.
    + eapply all_chars_impl; [|exact B]. intros d _ H. apply N.ltb_lt. now apply word_char_small.
Qed.

(** ** Spellings in ASCII *)
Definition spelled (t : token) : Prop :=
  word_elem U t (Tok (text_kind (t_type t)) (chars (spell t)) (t_string t) (t_float t)).
Ltac in_list := cbn; repeat first [left; reflexivity | right].
Lemma spelled_sign k l s : has_sign k = true -> spelled (tok k s l).
Proof.
  intros H. unfold spelled, word_elem. exists (chars (spell (tok k s l))). split; [reflexivity|].
  assert (X : lexeme U (Tok (text_kind k) (chars (spell (tok k s l))) None None) [" "] /\
              valid_source (chars (spell (tok k s l)))).
  { destruct k; try discriminate H; cbn [text_kind];
      match goal with |- lexeme U (Tok ?k ?c None None) _ /\ _ =>
        let x := eval vm_compute in c in change c with x end;
      first
      [ split; [first [ apply LPunct; in_list; fail | eapply LOpEq; in_list; fail
                      | eapply LOp; [in_list; fail|cbn; discriminate] | apply LSlash; cbn; discriminate ]
               | apply check_valid; vm_compute; reflexivity ]
      | match goal with |- lexeme U (Tok ?k ?x None None) _ /\ _ =>
          let w := eval vm_compute in (sconcat x) in change x with (chars w);
          apply word_text; [reflexivity|reflexivity|apply WReserved; in_list] end ]. }
  destruct X as [X1 X2]. split; [exact X1|]. split; [exact X2|].
  cbn. intros [E|[E|[]]]; subst; discriminate H.
Qed.
Lemma spelled_this l : spelled (tok This "this" l).
Proof.
  exists (chars "this"). split; [reflexivity|].
  destruct (word_text "t" "his" This eq_refl eq_refl) as [A B]; [apply WReserved; in_list|].
  split; [exact A|]. split; [exact B|]. intros _. reflexivity.
Qed.
Lemma spelled_name x l : ascii_name x -> spelled (name_tok x l).
Proof.
  destruct x as [|c r]; [contradiction|]. intros (A & B & N).
  exists (chars (String c r)). split; [reflexivity|].
  destruct (word_text c r Identifier A B) as [L V]; [now apply WIdentifier|].
  split; [exact L|]. split; [exact V|]. intros _. apply concat_chars.
Qed.
Lemma quote_chars s : chars (String.append s_quote (String.append s s_quote)) = s_quote :: chars s ++ [s_quote].
Proof. now rewrite !chars_app. Qed.
Lemma spelled_text s : ascii_text s -> spelled (string_tok s).
Proof.
  intros A. exists (chars (spell (string_tok s))). split; [reflexivity|].
  cbn [spell string_tok t_type t_string]. rewrite quote_chars. split; [|split].
  - cbn [t_type t_string t_float text_kind string_tok]. rewrite <- (concat_chars s) at 2. apply LString.
    clear - A. unfold ascii_text in A. induction s as [|c s IH]; [constructor|]. rewrite all_chars_cons in A.
    apply andb_prop in A. destruct A as [A B]. constructor; auto. intros [= ->]. discriminate A.
  - constructor; [left; reflexivity|]. apply Forall_app. split; [|repeat constructor].
    apply valid_chars. eapply all_chars_impl; [|exact A]. intros c _ H.
    apply andb_prop in H. destruct H as [H _]. now apply andb_prop in H.
  - cbn. intuition discriminate.
Qed.
Lemma digit_chars s : digits s -> Forall digit_cluster (chars s) /\ all_chars (fun c => c <? 128)%N s = true.
Proof.
  induction s as [|c s IH]; intros D; [split; [constructor|reflexivity]|].
  destruct IH as [A B]. { intros d I. apply D. now right. }
  assert (R := D c (or_introl eq_refl)).
  split.
  - constructor; auto. rewrite <- (ascii_N_embedding c). revert R. generalize (N_of_ascii c). intros n R.
    assert (I : In n [48; 49; 50; 51; 52; 53; 54; 55; 56; 57]%N).
    { assert (E : (n = 48 \/ n = 49 \/ n = 50 \/ n = 51 \/ n = 52 \/ n = 53 \/ n = 54 \/ n = 55 \/ n = 56 \/ n = 57)%N) by lia.
      cbn. intuition. }
    cbn in I. repeat (destruct I as [<-|I]; [in_list|]). contradiction.
  - rewrite all_chars_cons, B. apply andb_true_iff. split; auto. apply N.ltb_lt. lia.
Qed.
Lemma spelled_number x : literal x -> spelled (number_tok x).
Proof.
  intros L. destruct (number_text_reads x L) as (w & f & NE & Dw & Df & E & P).
  destruct (digit_chars w Dw) as [Cw Vw]. destruct (digit_chars f Df) as [Cf Vf].
  exists (chars (number_text x)). split; [reflexivity|]. cbn [spell number_tok t_type t_float t_string text_kind].
  assert (NEc : forall s, s <> EmptyString -> chars s <> nil) by (intros [|c s]; [congruence|discriminate]).
  split; [|split].
  - rewrite <- (concat_chars (number_text x)) in P.
    destruct E as [[E _]|[E N]]; rewrite E in *.
    + apply LInteger; auto. { apply space_no_digit. } intros (d & r & X & _). discriminate.
    + rewrite chars_app in *. change (chars (String "." f)) with ("." :: chars f) in *.
      apply LDecimal; auto. apply space_no_digit.
  - apply valid_chars. destruct E as [[E _]|[E N]]; rewrite E; auto.
    unfold all_chars in *. clear - Vw Vf. induction w as [|c w IH]; cbn in *; auto.
    apply andb_prop in Vw. destruct Vw as [A B]. rewrite A. cbn. auto.
  - cbn. intuition discriminate.
Qed.

(** ** From flows to texts *)
Lemma flows_writes (Q : token -> Prop) s ts s' eof : (forall t, Q t -> exists e, word_elem U t e) ->
  t_type eof = Eof -> t_string eof = None -> t_float eof = None ->
  flows Q s ts s' -> exists es, writes U s (ts ++ [eof]) es.
Proof.
  intros H K1 K2 K3. induction 1 as [s|t ts s' K KS KF F (es & IH)|s t ts s' K N N1 N2 F (es & IH)]; cbn.
  - exists nil. now apply WEnd.
  - exists (Newline :: es). now apply WNewline.
  - destruct (H _ K) as (e & E). exists (e :: gap_after (ts ++ [eof]) ++ es). now apply WWord.
Qed.
Lemma spelled_writes s ts s' eof :
  t_type eof = Eof -> t_string eof = None -> t_float eof = None ->
  flows spelled s ts s' -> exists es, writes U s (ts ++ [eof]) es /\ text_of es = chars (write (ts ++ [eof])).
Proof.
  intros K1 K2 K3. induction 1 as [s|t ts s' K KS KF F (es & IH & T)|s t ts s' K N N1 N2 F (es & IH & T)]; cbn [app write].
  - exists nil. rewrite K1. split; [now apply WEnd|reflexivity].
  - exists (Newline :: es). rewrite K. split; [now apply WNewline|]. rewrite chars_app. cbn. now rewrite <- T.
  - eexists (_ :: gap_after (ts ++ [eof]) ++ es). split; [apply WWord; [exact K|exact N|exact IH]|].
    assert (E : write (t :: ts ++ [eof])
      = String.append (spell t) (String.append (if abutting (ts ++ [eof]) then "" else " ") (write (ts ++ [eof])))).
    { cbn [write]. destruct (t_type t); try reflexivity; congruence. }
    cbn [write] in E. rewrite E, !chars_app. cbn [text_of flat_map elem_text]. f_equal.
    fold (text_of (gap_after (ts ++ [eof]) ++ es)). rewrite text_of_app, T. f_equal.
    unfold gap_after. destruct (abutting _); reflexivity.
Qed.

Lemma written_parses trailing oc l es : well_formed l -> writes U false (print_program l) es ->
  exists toks l', scan_tokens U (text_of es) = Done (Ok toks) /\ Relabel.words (print_program l) toks /\
    parse_with U (fun toks => parse_tokens toks trailing oc) (text_of es) = Done (Ok l') /\
    map unplaced l = map unplaced l'.
Proof.
  intros WF W. destruct (write_scan U knows_space knows_paren knows_sane _ _ W) as (toks & E & WD).
  assert (OK : tokens_ok toks) by exact (source_ok U knows_sane _ (writes_valid U _ _ _ W) toks E).
  destruct (parse_words trailing oc _ _ _ (print_ok l) OK WD (print_parse l trailing oc WF)) as (l' & P & X).
  exists toks, l'. repeat split; auto. unfold parse_with. rewrite E. exact P.
Qed.

Theorem write_parse trailing oc l : well_formed l -> ascii_program l ->
  exists l', parse_with U (fun toks => parse_tokens toks trailing oc) (chars (program_text l)) = Done (Ok l') /\
    map unplaced l' = map unplaced l.
Proof.
  intros WF A.
  destruct (program_flows spelled _ _ _ spelled_sign spelled_this spelled_name spelled_text spelled_number l A false) as (s' & F).
  destruct (spelled_writes false _ s' (punct Eof) eq_refl eq_refl eq_refl F) as (es & W & T).
  destruct (written_parses trailing oc l es WF W) as (toks & l' & _ & _ & P & X).
  unfold program_text, print_program. rewrite <- T. exists l'. auto.
Qed.

Theorem write_injective l l' : well_formed l -> ascii_program l -> well_formed l' -> ascii_program l' ->
  program_text l = program_text l' -> map unplaced l = map unplaced l'.
Proof.
  intros W A W' A' E. destruct (write_parse false false l W A) as (t & P & X).
  destruct (write_parse false false l' W' A') as (t' & P' & X'). rewrite E in P. congruence.
Qed.

(** ** Accepted programs *)
Definition cluster_name (x : string) : Prop := exists text,
  lexeme U (Tok Identifier text None None) [" "] /\ valid_source text /\ sconcat text = x.
Definition cluster_text (s : string) : Prop := exists text,
  lexeme U (Tok TString text (Some s) None) [" "] /\ valid_source text.
Definition cluster_number (x : f64) : Prop := exists text,
  lexeme U (Tok Number text None (Some x)) [" "] /\ valid_source text.
Lemma name_as_text x : cluster_name x -> cluster_text x.
Proof.
  intros (text & L & V & <-). exists (s_quote :: text ++ [s_quote]). split.
  - apply LString.
    assert (Y : exists g cs, text = g :: cs /\ ~ In g special /\ Forall (continues_word U) cs).
    { inversion L; subst; eauto; cbn in *; intuition (try discriminate; congruence). }
    destruct Y as (g & cs & -> & NS & C). constructor.
    + intros ->. apply NS. cbn. tauto.
    + eapply Forall_impl; [|exact C]. intros h (c & F & H) ->. cbn in F. injection F as <-.
      destruct H as [H|H]; [|discriminate]. pose proof knows_quote. congruence.
  - constructor; [left; reflexivity|]. apply Forall_app. split; auto. repeat constructor.
Qed.

Section Accepted.
Variable gs : list string.
Hypothesis V : valid_source gs.
Variable toks : list token.
Hypothesis T : scan_tokens U gs = Done (Ok toks).
Lemma token_text t : In t toks -> from_text t = true -> t_type t <> LeftParenAbutting -> exists text,
  lexeme U (Tok (t_type t) text (t_string t) (t_float t)) [" "] /\ valid_source text /\ sconcat text = t_lexeme t.
Proof.
  intros I F N. destruct (lexing_unique U gs) as (es & L & _).
  destruct (token_origin U gs es toks t knows_sane V L T I F) as (a & k & text & str & num & c & rest & E & G & Lx & Et).
  exists text. split; [|split].
  - apply (lexeme_now U knows_space _ _ _ _ _ nil) in Lx. rewrite Et. cbn [t_type t_string t_float mk_at].
    assert (KK : match k with LeftParen => if abuts (last_elem_of None a) then LeftParenAbutting else LeftParen | _ => k end = k).
    { destruct k; auto. rewrite Et in N. cbn in N. destruct (abuts _); [congruence|reflexivity]. }
    now rewrite KK.
  - rewrite G in V. apply Forall_app in V. destruct V as [_ V']. now apply Forall_app in V'.
  - rewrite Et. reflexivity.
Qed.
Lemma identifier_name t : In t toks -> t_type t = Identifier -> cluster_name (t_lexeme t).
Proof.
  intros I K. destruct (token_text t I) as (text & L & V' & E).
  { unfold from_text. now rewrite K. } { congruence. }
  exists text. split; auto. rewrite K in L.
  assert (X : t_string t = None /\ t_float t = None).
  { destruct (word_lexeme U _ _ _ _ _ L eq_refl) as (-> & -> & _). auto. }
  destruct X as [X1 X2]. now rewrite X1, X2 in L.
Qed.
Lemma at_name_name x l : at_name toks x l -> cluster_name x.
Proof. intros (t & I & K & <- & _). now apply identifier_name. Qed.
Lemma this_text t : In t toks -> t_type t = This -> t_lexeme t = "this".
Proof.
  intros I K. destruct (ScanFinal.words U knows_sane gs toks t V T I) as (b & g & cs & r & _ & _ & _ & _ & W & _).
  { now rewrite K. }
  rewrite K in W. inversion W as [w k H|w H]; subst. cbn in H. intuition congruence.
Qed.
Lemma string_text t s : In t toks -> t_type t = TString -> t_string t = Some s -> cluster_text s.
Proof.
  intros I K S. destruct (token_text t I) as (text & L & V' & E).
  { unfold from_text. now rewrite K. } { congruence. }
  exists text. split; auto. rewrite K, S in L. destruct (string_lexeme U _ _ _ _ L) as (X & _). now rewrite X in L.
Qed.
Lemma number_text' t x : In t toks -> t_type t = Number -> t_float t = Some x -> cluster_number x.
Proof.
  intros I K S. destruct (token_text t I) as (text & L & V' & E).
  { unfold from_text. now rewrite K. } { congruence. }
  exists text. split; auto. rewrite K, S in L. destruct (number_lexeme U _ _ _ _ L) as (ds & y & X & _). now rewrite X in L.
Qed.
Lemma located_writable p : located toks p -> assigns_name p -> no_empty_first p ->
  writable cluster_name cluster_text cluster_number p.
Proof.
  assert (M : forall ms, Forall (fun n => match n with NamedFun m f => at_name toks m (fun_loc f) end) ms ->
    Forall (fun n => match n with NamedFun m _ => cluster_name m end) ms).
  { intros ms. apply Forall_impl. intros [m f]. apply at_name_name. }
  intros L A B. destruct p as [st|e|c|f].
  - destruct st; cbn in *; auto.
    + destruct f. cbn in *. eapply at_name_name; eauto.
    + eapply at_name_name; eauto.
  - destruct e; cbn in *; auto.
    + destruct L as (_ & t & I & [K|K] & <-); [now apply identifier_name|]. apply this_text in I; auto. congruence.
    + destruct L as (_ & l' & N). eapply at_name_name; eauto.
    + eapply Forall_impl; [|exact L]. intros [k e] [(l & N)|(t & I & K & S)]; cbn in *.
      * apply name_as_text. eapply at_name_name; eauto.
      * eapply string_text; eauto.
    + destruct L as (t & I & K & S). eapply number_text'; eauto.
    + destruct L as (t & I & K & S). eapply string_text; eauto.
    + destruct L as (_ & l' & N). eapply at_name_name; eauto.
    + destruct L as (_ & l' & N). eapply at_name_name; eauto.
    + destruct L as (t & I & [K|K] & <- & _); [right; now apply identifier_name|left; now apply this_text].
  - destruct c as [x s ms l]. cbn in *. destruct L as (N & S & MS). split; [eapply at_name_name; eauto|]. split; auto.
    destruct s as [[]|]; auto. eapply at_name_name; eauto.
  - destruct f as [ps b k l]. cbn in *. eapply Forall_impl; [|exact L]. intros p. apply at_name_name.
Qed.
End Accepted.

Lemma spelled_word t : spelled t -> exists e, word_elem U t e.
Proof. unfold spelled. eauto. Qed.
Lemma no_indent ts : (exists s es, writes U s ts es) ->
  Forall (fun t => t_type t <> Indent /\ t_type t <> Outdent) ts.
Proof.
  intros (s & es & W). induction W as [s t K KS KF|t ts es K KS KF W IH|s t ts e es (text & -> & L & V & T) A W IH].
  - repeat constructor; congruence.
  - constructor; auto. split; congruence.
  - constructor; auto. apply lexeme_kind in L. destruct L as [L _]. split; intros E; rewrite E in L; discriminate.
Qed.
Theorem flat_program trailing oc gs l : valid_source gs -> accepted U oc gs l -> Forall no_empty_first (program_parts l) ->
  exists gs' toks l', valid_source gs' /\ scan_tokens U gs' = Done (Ok toks) /\
    Forall (fun t => t_type t <> Indent /\ t_type t <> Outdent) toks /\
    parse_with U (fun toks => parse_tokens toks trailing oc) gs' = Done (Ok l') /\
    map unplaced l' = map unplaced l.
Proof.
  intros V A B.
  pose proof (accepted_well_formed U knows_sane oc gs V l A) as WF.
  destruct (locations U knows_sane oc gs V (program_parts l)) as (toks & E & L). { left. eauto. }
  assert (W : Forall (writable cluster_name cluster_text cluster_number) (program_parts l)).
  { destruct WF as [WF _]. rewrite Forall_forall in *. intros p I. apply (located_writable gs V toks E); auto.
    destruct (WF p I) as ((_ & _ & _ & AN) & _). exact AN. }
  destruct (program_flows (fun t => exists e, word_elem U t e) cluster_name cluster_text cluster_number) with (l := l) (s := false)
    as (s' & F); auto.
  - intros k l0 s H. now apply spelled_word, spelled_sign.
  - intros l0. apply spelled_word, spelled_this.
  - intros x l0 (text & L1 & L2 & L3). eexists. exists text. split; [reflexivity|]. auto.
  - intros s (text & L1 & L2). eexists. exists text. split; [reflexivity|]. repeat split; auto. cbn. intuition discriminate.
  - intros s (text & L1 & L2). eexists. exists text. split; [reflexivity|]. repeat split; auto. cbn. intuition discriminate.
  - destruct (flows_writes _ false _ s' (punct Eof) (fun t H => H) eq_refl eq_refl eq_refl F) as (es & WR).
    destruct (written_parses trailing oc l es WF WR) as (toks' & l' & S & WD & P & X).
    exists (text_of es), toks', l'. split; [eapply writes_valid; eauto|]. split; [exact S|]. split; [|auto].
    assert (NI := no_indent _ (ex_intro _ _ (ex_intro _ _ WR))). fold (print_program l) in NI.
    clear - NI WD. induction WD as [|t t' i j (H & _) WD IH]; inversion NI; subst; constructor; auto.
    rewrite <- H. auto.
Qed.
End Ascii.

Lemma sample_knows_ascii : knows_ascii sample_unicode.
Proof.
  intros c L. cbn [u_alphabetic u_alphanumeric sample_unicode]. unfold sample_alphabetic.
  replace (192 <=? c)%N with false by (symmetry; apply N.leb_gt; lia).
  replace (880 <=? c)%N with false by (symmetry; apply N.leb_gt; lia).
  cbn [andb]. rewrite !orb_false_r. split; reflexivity.
Qed.

(** ** Deciding the conditions, for examples *)
Definition nameb (s : string) : bool :=
  match s with
  | EmptyString => false
  | String c r => first_word_char (N_of_ascii c) && all_chars word_char r &&
                  negb (existsb (fun p => String.eqb (fst p) s) reserved)
  end.
Lemma nameb_ok s : nameb s = true -> ascii_name s.
Proof.
  destruct s as [|c r]; [discriminate|]. cbn [nameb]. intros H. apply andb_prop in H. destruct H as [H N].
  apply andb_prop in H. destruct H as [A B]. repeat split; auto.
  intros I. apply in_map_iff in I. destruct I as (p & E & I). apply negb_true_iff in N.
  enough (X : existsb (fun p => String.eqb (fst p) (String c r)) reserved = true) by congruence.
  apply existsb_exists. exists p. split; auto. now apply String.eqb_eq.
Qed.
Definition textb (s : string) : bool := all_chars (fun c => (c <? 128) && negb (c =? 34) && negb (c =? 13))%N s.
Definition numberb (x : f64) : bool :=
  match x with
  | S754_zero false | S754_infinity false => true
  | S754_finite false p e =>
    ((Zpos p <? 2 ^ 53) && (-1074 <=? e) && (e <=? 971) && ((2 ^ 52 <=? Zpos p) || (e =? -1074)))%Z
  | _ => false
  end.
Lemma numberb_ok x : numberb x = true -> literal x.
Proof.
  destruct x as [[]|[]| |[] p e]; cbn [numberb literal]; try discriminate; auto.
  rewrite !andb_true_iff, orb_true_iff, Z.ltb_lt, !Z.leb_le, Z.eqb_eq. unfold binary64. rewrite Z.abs_eq; [tauto|lia].
Qed.
Definition writableb (p : part) : bool :=
  match p with
  | PStmt st =>
    match st with
    | SExpression e => negb (empty_first e)
    | SVar x _ _ _ | SFun (NamedFun x _) => nameb x
    | _ => true
    end
  | PExpr e =>
    match e with
    | EVariable x _ _ => String.eqb x "this" || nameb x
    | EAssign x _ _ _ | EGet _ x _ | ESet _ x _ _ | ESuper _ x _ => nameb x
    | ENumber x => numberb x
    | EString s => textb s
    | EMap m => forallb (fun kv => textb (fst kv)) m
    | _ => true
    end
  | PClass (ClassDef x s ms _) =>
    nameb x && match s with Some (EVariable y _ _) => nameb y | _ => true end &&
    forallb (fun n => match n with NamedFun m _ => nameb m end) ms
  | PFun (FunDef ps _ _ _) => forallb (fun p => nameb (p_name p)) ps
  end.
Lemma forallb_ok {A} (b : A -> bool) (P : A -> Prop) l : (forall x, b x = true -> P x) -> forallb b l = true -> Forall P l.
Proof. intros H F. rewrite forallb_forall in F. apply Forall_forall. auto. Qed.
Lemma writableb_ok p : writableb p = true -> writable ascii_name ascii_text literal p.
Proof.
  destruct p as [st|e|[x s ms l]|[ps b k l]]; cbn [writableb writable].
  - destruct st; auto using nameb_ok. { apply negb_true_iff. } destruct f. apply nameb_ok.
  - destruct e; auto using nameb_ok, numberb_ok.
    + apply forallb_ok. auto.
    + rewrite orb_true_iff, String.eqb_eq. intuition auto using nameb_ok.
  - rewrite !andb_true_iff. intros ((A & B) & C). repeat split; auto using nameb_ok.
    + destruct s as [[]|]; auto using nameb_ok.
    + revert C. apply forallb_ok. intros [m f]. apply nameb_ok.
  - apply forallb_ok. auto using nameb_ok.
Qed.
Lemma ascii_programb l : forallb writableb (program_parts l) = true -> ascii_program l.
Proof. apply forallb_ok. exact writableb_ok. Qed.
Lemma no_empty_firstb l : forallb (fun p => match p with PStmt (SExpression e) => negb (empty_first e) | _ => true end) l = true ->
  Forall no_empty_first l.
Proof. apply forallb_ok. intros [[]| | |]; cbn; auto. apply negb_true_iff. Qed.
