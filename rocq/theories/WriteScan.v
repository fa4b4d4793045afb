(** Scanning unindented text whose tokens are separated by spaces. *)
From Verif Require Import Base F64 Token Ast Scanner SpecLex SpecLayout SpecScan SpecPlace SpecWrite
  StrFacts ScanLex ScanLayout ScanUnique ScanProps ScanPairs ScanSpaces Relabel.

Section Write.
Variable U : unicode.
Hypothesis SP : u_alphanumeric U 32%N = false.
Hypothesis LP : u_alphanumeric U 40%N = false.

Definition text_kind (k : token_type) : token_type :=
  match k with LeftParenAbutting => LeftParen | k => k end.
(** [e] stands for the token [t] in the text. *)
Definition word_elem (t : token) (e : elem) : Prop :=
  exists text, e = Tok (text_kind (t_type t)) text (t_string t) (t_float t) /\ lexeme U e [" "] /\
    valid_source text /\ (In (t_type t) [Identifier; This] -> sconcat text = t_lexeme t).
Definition gap_after (ts : list token) : list elem := if abutting ts then nil else [Space].

Inductive writes : bool -> list token -> list elem -> Prop :=
| WEnd s t : t_type t = Eof -> t_string t = None -> t_float t = None -> writes s [t] nil
| WNewline t ts es : t_type t = Terminator -> t_string t = None -> t_float t = None ->
    writes false ts es -> writes true (t :: ts) (Newline :: es)
| WWord s t ts e es : word_elem t e -> (t_type t = LeftParenAbutting -> s = true) ->
    writes true ts es -> writes s (t :: ts) (e :: gap_after ts ++ es).

Lemma paren_no_digit : ~ digit_cluster "(".
Proof. cbn. intuition discriminate. Qed.
Lemma lexeme_paren k text str num r s :
  lexeme U (Tok k text str num) r -> lexeme U (Tok k text str num) ("(" :: s).
Proof.
  intros L. inversion L; subst.
  - now apply LPunct.
  - eapply LOpEq; eauto.
  - eapply LOp; eauto. cbn. discriminate.
  - apply LSlash. cbn. discriminate.
  - now apply LString.
  - apply LInteger; auto. { exact paren_no_digit. } intros (d & x' & E & D). discriminate.
  - apply LDecimal; auto. exact paren_no_digit.
  - apply LWord; auto. intros (c & F & [H'|H']); cbn in F; injection F as <-; [congruence|discriminate].
Qed.
Lemma paren_text text str num r : lexeme U (Tok LeftParen text str num) r -> text = ["("].
Proof.
  inversion 1; subst;
    repeat match goal with
    | G : In _ punctuation |- _ => cbn in G
    | G : In _ eq_operators |- _ => cbn in G
    | G : word_kind _ _ |- _ => inversion G; subst; clear G
    | G : In _ reserved |- _ => cbn in G
    end; intuition (try discriminate; congruence).
Qed.
Lemma abutting_true ts : abutting ts = true -> exists t r, ts = t :: r /\ t_type t = LeftParenAbutting.
Proof.
  destruct ts as [|t r]; cbn; [discriminate|]. unfold tt_eqb. destruct token_type_eq_dec; [eauto|discriminate].
Qed.
Lemma abutting_false t r : abutting (t :: r) = false -> t_type t <> LeftParenAbutting.
Proof. cbn. unfold tt_eqb. destruct token_type_eq_dec; [discriminate|auto]. Qed.
Lemma writes_lexes s ts es : writes s ts es -> lexes U (text_of es) es.
Proof.
  induction 1 as [s t K KS KF|t ts es K KS KF W IH|s t ts e es (text & -> & L & V & T) A W IH].
  - constructor.
  - apply (LexCons U Newline); auto. constructor.
  - unfold gap_after. destruct (abutting ts) eqn:AB.
    + apply (LexCons U (Tok _ _ _ _)); auto.
      destruct (abutting_true _ AB) as (t' & r & -> & K').
      inversion W as [s' t0 K0|? ? ? K0|s' t0 ts0 e0 es0 (tx & -> & L0 & _) A0 W0]; subst; try congruence.
      rewrite K' in L0. cbn [text_kind] in L0. apply paren_text in L0. subst tx. cbn.
      eapply lexeme_paren; eauto.
    + apply (LexCons U (Tok _ _ _ _)).
      * cbn. eapply lexeme_now; eauto.
      * apply (LexCons U Space); auto. constructor.
Qed.
Lemma writes_valid s ts es : writes s ts es -> valid_source (text_of es).
Proof.
  induction 1 as [s t K KS KF|t ts es K KS KF W IH|s t ts e es (text & -> & L & V & T) A W IH].
  - constructor.
  - now apply valid_nl.
  - cbn [text_of flat_map elem_text app]. apply Forall_app. split; auto. fold (text_of (gap_after ts ++ es)).
    rewrite text_of_app. unfold gap_after. destruct (abutting ts); cbn; auto. constructor; auto. left. reflexivity.
Qed.

(** ** Layout *)
Definition is_plain (e : elem) : Prop := match e with Tok _ _ _ _ | Space => True | _ => False end.
Definition last_is (p : elem -> Prop) (acc : list placed) : Prop :=
  exists q b e, acc = q ++ [(b, e)] /\ p e.
Definition line_start (acc : list placed) : Prop :=
  exists b k text str num r, acc = (b, Tok k text str num) :: r.
Definition plain_line (acc : list placed) : Prop := line_start acc /\ Forall (fun p => is_plain (snd p)) acc.

Lemma tokens_snoc prev (acc : list placed) x :
  elems_tokens prev (acc ++ [x]) =
  elems_tokens prev acc ++ elem_tokens (match rev acc with nil => prev | p :: _ => Some (snd p) end) x.
Proof.
  revert prev. induction acc as [|y acc IH]; intros prev; cbn.
  - now rewrite app_nil_r.
  - rewrite IH, <- app_assoc. f_equal. f_equal. destruct (rev acc) as [|z r]; reflexivity.
Qed.
Lemma plain_errors (acc : list placed) : Forall (fun p => is_plain (snd p)) acc -> elems_errors acc = nil.
Proof.
  unfold elems_errors. induction 1 as [|[b e] acc P F IH]; cbn; auto. rewrite IH. now destruct e.
Qed.
Lemma plain_start (acc : list placed) : line_start acc -> content acc = acc /\ leading acc = nil /\ indentation acc = 0%N.
Proof. intros (b & k & text & str & num & r & ->). repeat split. Qed.

Lemma layout_flat s ts es : writes s ts es -> forall acc prev b,
  (s = false -> acc = nil /\ (prev = None \/ prev = Some Newline)) ->
  (s = true -> plain_line acc /\
     last_is (fun e => if abutting ts then is_tok e = true else e = Space) acc) ->
  exists toks, layout nil false prev (split_lines acc (place b es)) = Some (elems_tokens prev acc ++ toks, nil, nil) /\
    forall eof, t_type eof = Eof -> t_string eof = None -> t_float eof = None -> words ts (toks ++ [eof]).
Proof.
  induction 1 as [s t K KS KF|t ts es K KS KF W IH|s t ts e es E A W IH]; intros acc prev b H0 H1.
  - exists nil. split.
    + cbn [place split_lines layout body ending terminator app].
      assert (X : acc = nil \/ plain_line acc) by (destruct s; [right; now apply H1|left; now apply H0]).
      destruct X as [->|(LS & F)]; [reflexivity|].
      destruct (plain_start _ LS) as (C & LD & IN). rewrite C, LD, IN, (plain_errors _ F).
      destruct LS as (b0 & k & text & str & num & r & ->). cbn [terminator ending body app layout open_line].
      reflexivity.
    + intros eof K' S' F'. constructor; [|constructor]. unfold same_word. rewrite K, K', KS, KF, S', F'.
      repeat split; auto. cbn. intuition discriminate.
  - destruct (H1 eq_refl) as ((LS & F) & q & b' & e & EA & LE).
    assert (AB : abutting (t :: ts) = false) by (cbn; rewrite K; reflexivity). rewrite AB in LE. subst e.
    destruct (IH nil (Some Newline) (b ++ [s_nl])%list) as (toks & L & WD); [auto|discriminate|].
    cbn [elems_tokens app] in L.
    exists (mk_at Terminator s_nl None None (position b) :: toks). split.
    + cbn [place split_lines elem_text layout body ending].
      destruct (plain_start _ LS) as (C & LD & IN).
      assert (CT : continuing acc = false) by (rewrite EA, last_continuing; reflexivity).
      assert (J : joins_next false (mkLine acc (ByNewline b)) = false).
      { unfold joins_next. cbn. rewrite C. destruct LS as (b0 & k & text & str & num & r & ->). exact CT. }
      assert (TM : terminator (mkLine acc (ByNewline b)) = [mk_at Terminator s_nl None None (position b)]).
      { unfold terminator. cbn [ending body]. rewrite C, CT. destruct LS as (b0 & k & text & str & num & r & ->). reflexivity. }
      rewrite J, TM, C, LD, IN, (plain_errors _ F). cbn [last_elem ending].
      destruct LS as (b0 & k & text & str & num & r & EQ). rewrite EQ at 1.
      cbn [open_line hd N.eqb]. rewrite L. reflexivity.
    + intros eof K' S' F'. constructor; [|now apply WD]. unfold same_word. rewrite K, KS, KF. repeat split; auto.
      cbn. intuition discriminate.
  - destruct E as (text & -> & L & V & T).
    set (e := Tok (text_kind (t_type t)) text (t_string t) (t_float t)) in *.
    set (gp := place (b ++ text) (gap_after ts)).
    assert (SPL : split_lines acc (place b (e :: gap_after ts ++ es))
                  = split_lines ((acc ++ [(b, e)]) ++ gp) (place ((b ++ text) ++ text_of (gap_after ts)) es)).
    { cbn [place elem_text]. change (elem_text e) with text. rewrite place_app. fold gp.
      change (split_lines acc (@cons placed (b, e) (gp ++ place ((b ++ text) ++ text_of (gap_after ts)) es)))
        with (split_lines (acc ++ [(b, e)]) (gp ++ place ((b ++ text) ++ text_of (gap_after ts)) es)).
      unfold gp, gap_after. destruct (abutting ts); cbn; [now rewrite !app_nil_r|reflexivity]. }
    rewrite SPL.
    assert (PL : plain_line ((acc ++ [(b, e)]) ++ gp)).
    { split.
      - destruct s.
        + destruct (H1 eq_refl) as (((b0 & k & tx & str & num & r & ->) & _) & _). repeat eexists.
        + destruct (H0 eq_refl) as (-> & _). repeat eexists.
      - apply Forall_app. split; [apply Forall_app; split|].
        + destruct s; [now apply H1|]. destruct (H0 eq_refl) as (-> & _). constructor.
        + repeat constructor.
        + unfold gp, gap_after. destruct (abutting ts); repeat constructor. }
    edestruct (IH ((acc ++ [(b, e)]) ++ gp) prev) as (toks & LY & WD).
    { discriminate. }
    { intros _. split; [exact PL|]. unfold gp, gap_after. destruct (abutting ts) eqn:AB.
      - exists acc, b, e. cbn. rewrite app_nil_r. auto.
      - exists (acc ++ [(b, e)])%list, (b ++ text)%list, Space. auto. }
    rewrite LY.
    assert (GT : elems_tokens prev ((acc ++ [(b, e)]) ++ gp) = elems_tokens prev (acc ++ [(b, e)])).
    { unfold gp, gap_after. destruct (abutting ts); cbn [place]; [now rewrite app_nil_r|].
      rewrite (tokens_snoc prev (acc ++ [(b, e)])). cbn. now rewrite app_nil_r. }
    rewrite GT, tokens_snoc.
    set (pe := match rev acc with nil => prev | p :: _ => Some (snd p) end).
    assert (PE : t_type t = LeftParenAbutting /\ abuts pe = true \/ t_type t <> LeftParenAbutting /\ abuts pe = false).
    { destruct (abutting (t :: ts)) eqn:AB.
      - left. destruct (abutting_true _ AB) as (t' & r & [= -> ->] & K). split; auto. specialize (A K). subst s.
        destruct (H1 eq_refl) as (_ & q & b' & e' & EA & LE). unfold pe. rewrite EA, rev_app_distr. cbn. now destruct e'.
      - right. split; [now apply (abutting_false t ts)|]. destruct s.
        + destruct (H1 eq_refl) as (_ & q & b' & e' & EA & LE). subst e'. unfold pe. now rewrite EA, rev_app_distr.
        + destruct (H0 eq_refl) as (-> & [->| ->]); reflexivity. }
    exists (elem_tokens pe (b, e) ++ toks). split; [now rewrite <- app_assoc|].
    intros eof K' S' F'. rewrite <- app_assoc. unfold e. cbn [elem_tokens app]. constructor; [|now apply WD].
    unfold same_word. cbn [t_type t_string t_float t_lexeme mk_at].
    split; [|repeat split; auto; intros I; symmetry; now apply T].
    destruct PE as [[-> ->]|[N ->]]; [reflexivity|]. destruct (t_type t); try reflexivity. congruence.
Qed.

Hypothesis Sn : sane U.
Theorem write_scan ts es : writes false ts es ->
  exists toks, scan_tokens U (text_of es) = Done (Ok toks) /\ words ts toks.
Proof.
  intros W. rewrite (scan_correct U Sn _ _ (writes_valid _ _ _ W) (writes_lexes _ _ _ W)).
  destruct (layout_flat _ _ _ W nil None nil) as (toks & L & WD); [auto|discriminate|].
  unfold scan_spec. cbn [elems_tokens app] in L. rewrite L. eexists. split; [reflexivity|]. apply WD; reflexivity.
Qed.
End Write.
