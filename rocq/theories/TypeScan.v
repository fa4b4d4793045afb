(** Scanning text with indented lines whose tokens are separated by spaces. *)
From Verif Require Import Base F64 Token Ast Scanner SpecLex SpecLayout SpecScan SpecPlace SpecWrite SpecType
  StrFacts ScanLex ScanLayout ScanUnique ScanProps ScanPairs ScanSpaces Relabel WriteScan TypeTree.
From Coq Require Import Lia.

Section Type_.
Variable U : unicode.
Hypothesis SP : u_alphanumeric U 32%N = false.
Hypothesis LP : u_alphanumeric U 40%N = false.

(** A continued line, then a comment. *)
Definition detour (d : nat) : list elem :=
  Continuation [s_backslash; s_nl] :: repeat Space d ++ [Comment ["/"; "/"]; Newline].
Definition margin (s : mode) (d : nat) : list elem := match s with Mid => nil | _ => repeat Space d end.
Inductive types : mode -> nat -> list token -> list elem -> Prop :=
| TEnd s t : s <> Due -> t_type t = Eof -> t_string t = None -> t_float t = None -> types s 0 [t] nil
| TNewline d t ts es : t_type t = Terminator -> t_string t = None -> t_float t = None ->
    types Fresh d ts es -> types Mid d (t :: ts) (Newline :: es)
| TWord s d t ts e es : word_elem U t e -> ~ In (t_type t) [Indent; Outdent] ->
    (t_type t = LeftParenAbutting -> s = Mid) ->
    types Mid d ts es -> types s d (t :: ts) (margin s d ++ e :: gap_after ts ++ es)
| TIndent d t ts es : t_type t = Indent -> t_string t = None -> t_float t = None ->
    types Due (S d) ts es -> types Fresh d (t :: ts) es
| TDetour d t ts es : t_type t = Indent -> t_string t = None -> t_float t = None ->
    types Due (S d) ts es -> types Mid d (t :: ts) (detour d ++ es)
| TOutdent d t ts es : t_type t = Outdent -> t_string t = None -> t_float t = None ->
    types Due d ts es -> types Fresh (S d) (t :: ts) es.

Lemma spaces_lexes n r es : lexes U r es -> lexes U (text_of (repeat Space n) ++ r) (repeat Space n ++ es).
Proof. intros H. induction n as [|n IH]; cbn; auto. apply (LexCons U Space); auto. constructor. Qed.
Lemma types_lexes s d ts es : types s d ts es -> lexes U (text_of es) es.
Proof.
  induction 1 as [s t N K KS KF|d t ts es K KS KF W IH|s d t ts e es (text & -> & L & V & T) NI A W IH
                 |d t ts es K KS KF W IH|d t ts es K KS KF W IH|d t ts es K KS KF W IH]; auto.
  - constructor.
  - apply (LexCons U Newline); auto. constructor.
  - assert (X : lexes U (text_of (Tok (text_kind (t_type t)) text (t_string t) (t_float t) :: gap_after ts ++ es))
                 (Tok (text_kind (t_type t)) text (t_string t) (t_float t) :: gap_after ts ++ es)).
    { unfold gap_after. destruct (abutting ts) eqn:AB.
      + apply (LexCons U (Tok _ _ _ _)); auto.
        destruct (abutting_true _ AB) as (t' & r & -> & K').
        inversion W as [| |s' d' t0 ts0 e0 es0 (tx & -> & L0 & _) NI0 A0 W0| | |]; subst; try congruence.
        rewrite K' in L0. cbn [text_kind] in L0. apply paren_text in L0. subst tx. cbn.
        eapply lexeme_paren; eauto.
      + apply (LexCons U (Tok _ _ _ _)).
        * cbn. eapply lexeme_now; eauto.
        * apply (LexCons U Space); auto. constructor. }
    rewrite text_of_app. unfold margin. destruct s; auto; now apply spaces_lexes.
  - unfold detour. rewrite <- app_comm_cons, <- app_assoc.
    apply (LexCons U (Continuation [s_backslash; s_nl])). { apply (LContinuation U 0 nil). now left. }
    rewrite text_of_app. apply spaces_lexes.
    apply (LexCons U (Comment ["/"; "/"])). { apply LComment; [constructor|]. cbn. congruence. }
    apply (LexCons U Newline); auto. constructor.
Qed.
Lemma spaces_valid n r : valid_source r -> valid_source (text_of (repeat Space n) ++ r).
Proof. intros H. induction n as [|n IH]; cbn; auto. constructor; auto. left. reflexivity. Qed.
Lemma types_valid s d ts es : types s d ts es -> valid_source (text_of es).
Proof.
  induction 1 as [s t N K KS KF|d t ts es K KS KF W IH|s d t ts e es (text & -> & L & V & T) NI A W IH
                 |d t ts es K KS KF W IH|d t ts es K KS KF W IH|d t ts es K KS KF W IH]; auto.
  - constructor.
  - now apply valid_nl.
  - assert (X : valid_source (text_of (Tok (text_kind (t_type t)) text (t_string t) (t_float t) :: gap_after ts ++ es))).
    { cbn [text_of flat_map elem_text app]. apply Forall_app. split; auto. fold (text_of (gap_after ts ++ es)).
      rewrite text_of_app. unfold gap_after. destruct (abutting ts); cbn; auto. constructor; auto. left. reflexivity. }
    rewrite text_of_app. unfold margin. destruct s; auto; now apply spaces_valid.
  - unfold detour. rewrite <- app_comm_cons, <- app_assoc. cbn [text_of flat_map elem_text app].
    constructor; [left; reflexivity|]. apply valid_nl. fold (text_of (repeat Space d ++ [Comment ["/"; "/"]; Newline] ++ es)).
    rewrite text_of_app. apply spaces_valid. cbn. constructor; [left; reflexivity|]. constructor; [left; reflexivity|].
    now apply valid_nl.
Qed.

(** ** Layout *)
Fixpoint steps (d : nat) : list N := match d with O => nil | S n => N.of_nat (S n) :: steps n end.
Lemma steps_le d w : (N.of_nat d <= w)%N -> filter (fun n => w <? n)%N (steps d) = nil /\ filter (fun n => n <=? w)%N (steps d) = steps d.
Proof.
  induction d as [|d IH]; intros L; [split; reflexivity|]. destruct IH as [A B]; [lia|].
  cbn [steps filter]. assert (X : (w <? N.of_nat (S d))%N = false) by (apply N.ltb_ge; exact L).
  assert (Y : (N.of_nat (S d) <=? w)%N = true) by (apply N.leb_le; exact L). rewrite X, Y, A, B. split; reflexivity.
Qed.
Lemma steps_top d : hd 0%N (steps d) = N.of_nat d.
Proof. now destruct d. Qed.
Lemma open_same d j p : open_line (steps d) j (N.of_nat d) p = Some (nil, nil, steps d).
Proof. destruct p. unfold open_line. rewrite steps_top, N.eqb_refl. reflexivity. Qed.
Definition bare (k : token_type) (o : token) : Prop := t_type o = k /\ t_string o = None /\ t_float o = None.
Lemma open_deeper d p : exists o, open_line (steps d) false (N.of_nat (S d)) p = Some ([o], nil, steps (S d)) /\ bare Indent o.
Proof.
  destruct p as [b e]. unfold open_line. rewrite steps_top.
  replace (N.of_nat (S d) =? N.of_nat d)%N with false by (symmetry; apply N.eqb_neq; lia).
  replace (N.of_nat d <? N.of_nat (S d))%N with true by (symmetry; apply N.ltb_lt; lia).
  eexists. split; [reflexivity|]. repeat split.
Qed.
Lemma open_back d p : exists o, open_line (steps (S d)) false (N.of_nat d) p = Some ([o], nil, steps d) /\ bare Outdent o.
Proof.
  destruct p as [b e]. unfold open_line. rewrite steps_top.
  replace (N.of_nat d =? N.of_nat (S d))%N with false by (symmetry; apply N.eqb_neq; lia).
  replace (N.of_nat (S d) <? N.of_nat d)%N with false by (symmetry; apply N.ltb_ge; lia).
  destruct (steps_le d (N.of_nat d)) as [A B]; [lia|].
  cbn [steps filter].
  replace (N.of_nat d <? N.of_nat (S d))%N with true by (symmetry; apply N.ltb_lt; lia).
  replace (N.of_nat (S d) <=? N.of_nat d)%N with false by (symmetry; apply N.leb_gt; lia).
  rewrite A, B. destruct d as [|d].
  - eexists. split; [reflexivity|]. repeat split.
  - cbn [steps length repeat]. rewrite N.eqb_refl. eexists. split; [reflexivity|]. repeat split.
Qed.

(** A line of [w] spaces and then words. *)
Definition in_line (w : nat) (acc : list placed) : Prop :=
  exists sp rest, acc = sp ++ rest /\ length sp = w /\ Forall (fun p => snd p = Space) sp /\ plain_line rest.
Lemma spaces_then (sp rest : list placed) : Forall (fun p => snd p = Space) sp ->
  content (sp ++ rest) = content rest /\ leading (sp ++ rest) = sp ++ leading rest.
Proof.
  induction 1 as [|[b e] sp E F IH]; [split; reflexivity|]. cbn in E. subst e. cbn. destruct IH as [-> ->]. split; reflexivity.
Qed.
Lemma spaces_count (sp : list placed) : Forall (fun p => snd p = Space) sp -> filter is_space sp = sp.
Proof. induction 1 as [|[b e] sp E F IH]; [reflexivity|]. cbn in E. subst e. cbn [filter is_space snd]. now rewrite IH. Qed.
Lemma spaces_tokens prev (sp rest : list placed) : Forall (fun p => snd p = Space) sp -> 
  elems_tokens prev (sp ++ rest) = elems_tokens (match sp with nil => prev | _ => Some Space end) rest.
Proof.
  intros F. revert prev. induction F as [|[b e] sp E F IH]; intros prev; [reflexivity|]. cbn in E. subst e.
  cbn [app elems_tokens elem_tokens snd]. rewrite IH. now destruct sp.
Qed.
Lemma in_line_start w acc : in_line w acc -> (N.of_nat w <= u16_max)%N ->
  (exists b k text str num r, content acc = (b, Tok k text str num) :: r) /\ indentation acc = N.of_nat w /\
  elems_errors (leading acc) = nil /\ elems_errors (content acc) = nil.
Proof.
  intros (sp & rest & -> & <- & SPS & LS & F) L.
  destruct (spaces_then sp rest SPS) as [C LD]. destruct (plain_start _ LS) as (C' & L' & _).
  rewrite C, C'. assert (LE : leading (sp ++ rest) = sp) by (rewrite LD, L'; apply app_nil_r).
  destruct LS as (b & k & text & str & num & r & ->). split; [repeat eexists|]. split; [|split].
  - unfold indentation. rewrite LE, spaces_count by assumption. lia.
  - rewrite LE. apply plain_errors. eapply Forall_impl; [|exact SPS]. intros p ->. exact I.
  - now apply plain_errors.
Qed.
Definition opens (stack : list N) (joined : bool) (acc : list placed) (d : nat) (op : list token) : Prop :=
  exists first r, content acc = first :: r /\ open_line stack joined (indentation acc) first = Some (op, nil, steps d).
Definition wordy (ts toks : list token) : Prop :=
  forall eof, t_type eof = Eof -> t_string eof = None -> t_float eof = None -> words ts (toks ++ [eof]).
Definition laid (s : mode) (d : nat) (ts : list token) (es : list elem) : Prop :=
  match s with
  | Mid => forall acc prev b stack joined w op, in_line w acc -> (N.of_nat w <= u16_max)%N ->
      last_is (fun e => if abutting ts then is_tok e = true else e = Space) acc ->
      opens stack joined acc d op ->
      exists toks, layout stack joined prev (split_lines acc (place b es)) = Some (op ++ elems_tokens prev acc ++ toks, nil, nil) /\
        wordy ts toks
  | Fresh => forall prev b, prev = None \/ prev = Some Newline ->
      exists toks, layout (steps d) false prev (split_lines nil (place b es)) = Some (toks, nil, nil) /\ wordy ts toks
  | Due => forall prev b d0 k, prev = None \/ prev = Some Newline ->
      (d = S d0 /\ k = Indent \/ d0 = S d /\ k = Outdent) ->
      exists o toks, layout (steps d0) false prev (split_lines nil (place b es)) = Some (o :: toks, nil, nil) /\
        bare k o /\ wordy ts toks
  end.
Lemma peak_above ts : forall d, d <= peak d ts.
Proof. destruct ts; intros d; cbn; lia. Qed.
Lemma wordy_cons t o ts toks : same_word t o -> wordy ts toks -> wordy (t :: ts) (o :: toks).
Proof. intros A B eof K S' F. constructor; [exact A|]. now apply B. Qed.
Lemma bare_word t o k : bare k o -> bare k t -> ~ In k [Identifier; This] -> same_word t o.
Proof. intros (A & B & C) (D & E & F) N. unfold same_word. rewrite A, B, C, D, E, F. intuition. Qed.
Lemma place_spaces n : forall b, Forall (fun p : placed => snd p = Space) (place b (repeat Space n)) /\ length (place b (repeat Space n)) = n.
Proof. induction n as [|n IH]; intros b; cbn; [split; auto|]. destruct (IH (b ++ [" "])%list) as [A B]. split; [constructor; auto|now rewrite B]. Qed.
Lemma split_plain ps : forall acc r, Forall (fun p : placed => is_plain (snd p)) ps ->
  split_lines acc (@app placed ps r) = split_lines (acc ++ ps) r.
Proof.
  induction ps as [|[b e] ps IH]; intros acc r F; [cbn; now rewrite app_nil_r|].
  inversion F as [|? ? P F']; subst. cbn in P.
  assert (X : split_lines acc (@app placed ((b, e) :: ps) r) = split_lines (acc ++ [(b, e)]) (@app placed ps r)) by (cbn; now destruct e).
  rewrite X, IH, <- app_assoc by assumption. reflexivity.
Qed.

(** A word at the start of a line. *)
Lemma first_word t ts e es d stack op prev b : word_elem U t e -> t_type t <> LeftParenAbutting ->
  (N.of_nat d <= u16_max)%N -> prev = None \/ prev = Some Newline ->
  (forall p, exists o, open_line stack false (N.of_nat d) p = Some (o, nil, steps d) /\ op o) ->
  laid Mid d ts es ->
  exists o toks, layout stack false prev (split_lines nil (place b (repeat Space d ++ e :: gap_after ts ++ es))) =
    Some (o ++ toks, nil, nil) /\ op o /\ wordy (t :: ts) toks.
Proof.
  intros (text & -> & L & V & T) NP LD PV OP H.
  set (e := Tok (text_kind (t_type t)) text (t_string t) (t_float t)) in *.
  destruct (place_spaces d b) as [SPS LN]. set (sp := place b (repeat Space d)) in *.
  set (b1 := (b ++ text_of (repeat Space d))%list).
  set (gp := place (b1 ++ text) (gap_after ts)).
  assert (GP : Forall (fun p : placed => is_plain (snd p)) gp).
  { unfold gp, gap_after. destruct (abutting ts); repeat constructor. }
  set (acc := (sp ++ (b1, e) :: gp)%list : list placed).
  assert (SPL : split_lines nil (place b (repeat Space d ++ e :: gap_after ts ++ es))
                = split_lines acc (place ((b1 ++ text) ++ text_of (gap_after ts)) es)).
  { rewrite place_app. cbn [place]. fold sp b1. change (elem_text e) with text. rewrite place_app. fold gp.
    change (@app placed sp ((b1, e) :: gp ++ place ((b1 ++ text) ++ text_of (gap_after ts)) es))
      with (@app placed sp (@app placed ((b1, e) :: gp) (place ((b1 ++ text) ++ text_of (gap_after ts)) es))).
    rewrite app_assoc. apply (split_plain acc nil). unfold acc. apply Forall_app. split.
    - eapply Forall_impl; [|exact SPS]. intros p ->. exact I.
    - constructor; [exact I|exact GP]. }
  rewrite SPL.
  assert (IL : in_line d acc).
  { exists sp, ((b1, e) :: gp)%list. repeat split; auto.
    - unfold e. repeat eexists.
    - constructor; [exact I|exact GP]. }
  destruct (in_line_start d acc IL LD) as ((b' & k' & tx' & st' & nm' & r' & C) & IN & _).
  destruct (OP (b', Tok k' tx' st' nm')) as (o & OL & OO).
  destruct (H acc prev ((b1 ++ text) ++ text_of (gap_after ts))%list stack false d o IL LD) as (toks & LY & WD).
  { unfold acc, gp, gap_after. destruct (abutting ts) eqn:AB.
    - exists sp, b1, e. split; reflexivity.
    - exists (sp ++ [(b1, e)])%list, (b1 ++ text)%list, Space. split; [now rewrite <- app_assoc|reflexivity]. }
  { exists (b', Tok k' tx' st' nm'), r'. split; auto. now rewrite IN. }
  assert (TK : elems_tokens prev acc = [mk_at (t_type t) (sconcat text) (t_string t) (t_float t) (position b1)]).
  { unfold acc. rewrite spaces_tokens by assumption.
    assert (AB : abuts (match sp with nil => prev | _ => Some Space end) = false) by (destruct sp; [destruct PV as [->| ->]|]; reflexivity).
    assert (G : forall q, elems_tokens q gp = nil) by (intros q; unfold gp, gap_after; destruct (abutting ts); reflexivity).
    unfold e. cbn [elems_tokens elem_tokens app]. rewrite AB, G. cbn [app]. f_equal. f_equal.
    destruct (t_type t); try reflexivity. congruence. }
  rewrite LY, TK. exists o. eexists. split; [reflexivity|]. split; auto.
  apply wordy_cons; auto. unfold same_word. cbn [t_type t_string t_float t_lexeme mk_at]. repeat split; auto.
  intros I. symmetry. now apply T.
Qed.

Lemma layout_typed s d ts es : types s d ts es -> (N.of_nat (peak d ts) <= u16_max)%N -> laid s d ts es.
Proof.
  induction 1 as [s t N K KS KF|d t ts es K KS KF W IH|s d t ts e es E NI A W IH
                 |d t ts es K KS KF W IH|d t ts es K KS KF W IH|d t ts es K KS KF W IH]; intros PK.
  - (* the end *)
    assert (WN : wordy [t] nil).
    { intros eof K' S' F'. constructor; [|constructor]. apply (bare_word _ _ Eof); [now repeat split..|cbn; intuition discriminate]. }
    destruct s; [|intros prev b _; exists nil; split; [reflexivity|exact WN]|congruence].
    intros acc prev b stack joined w op IL LW _ (first & r & C & OL). exists nil. split; [|exact WN].
    destruct (in_line_start w acc IL LW) as (_ & _ & E1 & E2).
    cbn [place split_lines layout body]. rewrite C, OL, E1. rewrite C in E2. rewrite E2. cbn. reflexivity.
  - (* a newline *)
    specialize (IH ltac:(cbn in PK; rewrite K in PK; lia)).
    intros acc prev b stack joined w op IL LW (q & b' & e & EA & LE) (first & r & C & OL).
    assert (AB : abutting (t :: ts) = false) by (cbn; rewrite K; reflexivity). rewrite AB in LE. subst e.
    destruct (IH (Some Newline) (b ++ [s_nl])%list) as (toks & L & WD); [auto|].
    exists (mk_at Terminator s_nl None None (position b) :: toks). split.
    + destruct (in_line_start w acc IL LW) as ((b0 & k0 & tx0 & st0 & nm0 & r0 & C0) & _ & E1 & E2).
      cbn [place split_lines elem_text layout body ending].
      assert (CT : continuing acc = false) by (rewrite EA, last_continuing; reflexivity).
      assert (J : joins_next joined (mkLine acc (ByNewline b)) = false).
      { unfold joins_next. cbn. now rewrite C. }
      assert (TM : terminator (mkLine acc (ByNewline b)) = [mk_at Terminator s_nl None None (position b)]).
      { unfold terminator. cbn [ending body]. rewrite C0, CT. reflexivity. }
      rewrite J, TM, E1, E2, C, OL. cbn [last_elem ending]. rewrite L. reflexivity.
    + apply wordy_cons; auto. apply (bare_word _ _ Terminator); [now repeat split..|cbn; intuition discriminate].
  - (* a word *)
    assert (PK' : (N.of_nat (peak d ts) <= u16_max)%N).
    { cbn in PK. assert (X : match t_type t with Indent => S d | Outdent => pred d | _ => d end = d).
      { destruct (t_type t); try reflexivity; exfalso; apply NI; cbn; auto. }
      rewrite X in PK. lia. }
    assert (LD : (N.of_nat d <= u16_max)%N) by (pose proof (peak_above ts d); lia).
    specialize (IH PK'). destruct s; cbn [margin app].
    + intros acc prev b stack joined w op IL LW LA OP.
      destruct E as (text & -> & L & V & T).
      set (e := Tok (text_kind (t_type t)) text (t_string t) (t_float t)) in *.
      set (gp := place (b ++ text) (gap_after ts)).
      assert (GP : Forall (fun p : placed => is_plain (snd p)) gp).
      { unfold gp, gap_after. destruct (abutting ts); repeat constructor. }
      assert (SPL : split_lines acc (place b (e :: gap_after ts ++ es))
                    = split_lines (acc ++ (b, e) :: gp) (place ((b ++ text) ++ text_of (gap_after ts)) es)).
      { cbn [place]. change (elem_text e) with text. rewrite place_app. fold gp.
        apply (split_plain ((b, e) :: gp) acc). constructor; [exact I|exact GP]. }
      rewrite SPL.
      assert (IL' : in_line w (acc ++ (b, e) :: gp)).
      { destruct IL as (sp & rest & -> & LN & SPS & LS & F). exists sp, (rest ++ (b, e) :: gp)%list.
        split; [now rewrite <- app_assoc|]. repeat split; auto.
        - destruct LS as (b0 & k0 & tx0 & st0 & nm0 & r0 & ->). repeat eexists.
        - apply Forall_app. split; auto. constructor; [exact I|exact GP]. }
      destruct (in_line_start w acc IL LW) as ((b0 & k0 & tx0 & st0 & nm0 & r0 & C0) & IN & _).
      destruct (in_line_start w _ IL' LW) as (_ & IN' & _).
      edestruct (IH (acc ++ (b, e) :: gp)%list prev) as (toks & LY & WD); [exact IL'|exact LW| | |].
      * unfold gp, gap_after. destruct (abutting ts) eqn:AB.
        -- exists acc, b, e. split; reflexivity.
        -- exists (acc ++ [(b, e)])%list, (b ++ text)%list, Space. split; [now rewrite <- app_assoc|reflexivity].
      * destruct OP as (first & r & C & OL). exists first, (r ++ (b, e) :: gp)%list. split; [|rewrite IN', <- IN; exact OL].
        destruct IL as (sp & rest & -> & LN & SPS & LS & F). rewrite <- app_assoc.
        destruct (spaces_then sp rest SPS) as [X _]. destruct (spaces_then sp (rest ++ (b, e) :: gp) SPS) as [Y _].
        rewrite Y. rewrite X in C. destruct LS as (b1 & k1 & tx1 & st1 & nm1 & r1 & ->). cbn in C |- *.
        injection C as <- <-. reflexivity.
      * rewrite LY.
        assert (GT : elems_tokens prev (acc ++ (b, e) :: gp) = elems_tokens prev (acc ++ [(b, e)])).
        { change ((b, e) :: gp) with ([(b, e)] ++ gp). rewrite app_assoc. unfold gp, gap_after.
          destruct (abutting ts); cbn [place]; [now rewrite app_nil_r|].
          rewrite (tokens_snoc prev (acc ++ [(b, e)])). cbn. now rewrite app_nil_r. }
        rewrite GT, tokens_snoc.
        set (pe := match rev acc with nil => prev | p :: _ => Some (snd p) end).
        assert (PE : t_type t = LeftParenAbutting /\ abuts pe = true \/ t_type t <> LeftParenAbutting /\ abuts pe = false).
        { destruct LA as (q & b' & e' & EA & LE). destruct (abutting (t :: ts)) eqn:AB.
          - left. destruct (abutting_true _ AB) as (t' & r & [= -> ->] & K). split; auto.
            unfold pe. rewrite EA, rev_app_distr. cbn. now destruct e'.
          - right. split; [now apply (abutting_false t ts)|]. subst e'. unfold pe. now rewrite EA, rev_app_distr. }
        exists (elem_tokens pe (b, e) ++ toks). split; [now rewrite <- app_assoc|].
        unfold e. cbn [elem_tokens app]. apply wordy_cons; auto.
        unfold same_word. cbn [t_type t_string t_float t_lexeme mk_at].
        split; [|repeat split; auto; intros I; symmetry; now apply T].
        destruct PE as [[-> ->]|[N ->]]; [reflexivity|]. destruct (t_type t); try reflexivity. congruence.
    + intros prev b PV.
      destruct (first_word t ts e es d (steps d) (fun o => o = nil) prev b E) as (o & toks & LY & -> & WD); auto.
      * intros X. now apply A in X.
      * intros p. exists nil. split; auto. apply open_same.
      * exists toks. split; auto.
    + intros prev b d0 k PV CH.
      destruct (first_word t ts e es d (steps d0) (fun o => exists x, o = [x] /\ bare k x) prev b E) as (o & toks & LY & (x & -> & B) & WD); auto.
      * intros X. now apply A in X.
      * intros p. destruct CH as [[-> ->]|[-> ->]].
        -- destruct (open_deeper d0 p) as (x & O & B). eauto.
        -- destruct (open_back d p) as (x & O & B). eauto.
      * exists x, toks. split; auto.
  - (* a deeper line *)
    specialize (IH ltac:(cbn in PK; rewrite K in PK; lia)). intros prev b PV.
    destruct (IH prev b d Indent PV) as (o & toks & LY & B & WD); [now left|].
    exists (o :: toks). split; auto. apply wordy_cons; auto. apply (bare_word _ _ Indent); auto; [now repeat split|cbn; intuition discriminate].
  - (* a detour *)
    assert (PK' : (N.of_nat (peak (S d) ts) <= u16_max)%N) by (cbn in PK; rewrite K in PK; lia).
    assert (LD : (N.of_nat d <= u16_max)%N) by (pose proof (peak_above ts (S d)); lia).
    specialize (IH PK').
    intros acc prev b stack joined w op IL LW LA (first & r & C & OL).
    destruct (in_line_start w acc IL LW) as (_ & _ & E1 & E2).
    unfold detour. rewrite <- app_comm_cons, <- app_assoc. cbn [place split_lines app elem_text].
    rewrite place_app. cbn [place app elem_text].
    match goal with |- context [split_lines nil (@app placed ?x ?y)] => set (sp := x); set (rst := y) end.
    destruct (place_spaces d (b ++ [s_backslash; s_nl])%list) as [SPS LN]. fold sp in SPS, LN.
    assert (X : split_lines nil (@app placed sp rst) = split_lines sp rst).
    { apply (split_plain sp nil). eapply Forall_impl; [|exact SPS]. intros p ->. exact I. }
    rewrite X. unfold rst. cbn [split_lines].
    match goal with |- context [mkLine (@app placed sp [?x]) (ByNewline ?y)] => set (cm := x); set (nb := y) end.
    match goal with |- context [split_lines nil (place ?y es)] => set (nx := y) end.
    destruct (IH (Some Newline) nx d Indent) as (o & toks & LY & B & WD); [auto|now left|].
    destruct (spaces_then sp [cm] SPS) as [CC CL].
    exists (o :: toks). split; [|apply wordy_cons; auto; apply (bare_word _ _ Indent); auto; [now repeat split|cbn; intuition discriminate]].
    cbn [layout body ending]. rewrite C, OL.
    change (joins_next joined (mkLine acc (ByContinuation (Continuation [s_backslash; s_nl])))) with true. cbn [ending last_elem].
    rewrite CC, CL. cbn [content leading is_blank cm].
    assert (IN : indentation (sp ++ [cm]) = N.of_nat d).
    { unfold indentation. rewrite CL. cbn [leading is_blank cm]. rewrite app_nil_r, spaces_count, LN by assumption. lia. }
    rewrite IN, open_same.
    assert (J : joins_next true (mkLine (sp ++ [cm]) (ByNewline nb)) = false).
    { unfold joins_next. cbn [ending body]. rewrite CC. cbn [content cm is_blank]. rewrite last_continuing. reflexivity. }
    assert (TM : terminator (mkLine (sp ++ [cm]) (ByNewline nb)) = nil).
    { unfold terminator. cbn [ending body]. rewrite CC. cbn [content cm is_blank is_comment_line]. now rewrite orb_true_r. }
    rewrite J, TM, LY. rewrite spaces_tokens by assumption.
    rewrite E1. rewrite C in E2. rewrite E2.
    assert (EL : elems_errors (sp ++ nil) = nil).
    { rewrite app_nil_r. apply plain_errors. eapply Forall_impl; [|exact SPS]. intros p ->. exact I. }
    rewrite EL. reflexivity.
  - (* back *)
    specialize (IH ltac:(cbn [peak] in PK; rewrite K in PK; cbn [pred] in PK; lia)). intros prev b PV.
    destruct (IH prev b (S d) Outdent PV) as (o & toks & LY & B & WD); [now right|].
    exists (o :: toks). split; auto. apply wordy_cons; auto. apply (bare_word _ _ Outdent); auto; [now repeat split|cbn; intuition discriminate].
Qed.

Hypothesis Sn : sane U.
Theorem type_scan ts es : types Fresh 0 ts es -> (N.of_nat (peak 0 ts) <= u16_max)%N ->
  exists toks, scan_tokens U (text_of es) = Done (Ok toks) /\ words ts toks.
Proof.
  intros W PK. rewrite (scan_correct U Sn _ _ (types_valid _ _ _ _ W) (types_lexes _ _ _ _ W)).
  destruct (layout_typed _ _ _ _ W PK None nil) as (toks & L & WD); [auto|].
  unfold scan_spec. cbn [steps] in L. rewrite L. eexists. split; [reflexivity|]. apply WD; reflexivity.
Qed.
End Type_.
