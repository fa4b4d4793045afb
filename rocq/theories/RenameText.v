(** Sources with other names have the trees with the other names, and errors with the same messages. *)
From Verif Require Import Base F64 Token Ast Scanner Parser Resolver SpecLex SpecLayout SpecScan SpecParse SpecPlace SpecGrammar SpecReject
  SpecRename SpecRenameText ScanProps ParseRun ScanFinal ScanUnique ParseFirst ParseComplete ParseSound RejectUnique ScanLex ScanLayout ScanPairs ScanErrors ParseTop ParseProps RejectTop RejectFinal Relabel RelabelResolve
  RenameResolve RenameWords RenameErrors.

Section Rename.
Variable r : string -> string.
Hypothesis RA : renaming_all r.

(** ** Tokens *)
Lemma ok_values toks : tokens_ok toks -> Forall has_value toks.
Proof.
  intros OK. exact (tk_string _ OK).
Qed.
Theorem parse_tokens_renamed toks toks' trailing oc : tokens_ok toks -> tokens_ok toks' -> new_words r toks toks' ->
  renamed_program r (parse_tokens toks trailing oc) (parse_tokens toks' trailing oc).
Proof.
  intros OK OK' W. assert (A : fit r toks toks') by (split; [exact W|now apply ok_values]).
  destruct (parse_tokens_spec toks trailing oc OK) as ([l|cs] & E & S); rewrite E.
  - destruct S as (eof & K & D).
    destruct (derives_renamed r RA _ _ _ _ _ _ D toks' Program W eq_refl) as (v' & s & D' & W' & X).
    destruct v'; cbn in X; try discriminate X. injection X as X.
    apply new_cons in W'. destruct W' as (u & s' & -> & (T & _) & W'). inversion W'; subst.
    assert (E' : parse_tokens toks' trailing oc = Done (Ok l0)).
    { apply parse_tokens_exact; auto. exists u. split; auto. congruence. }
    rewrite E'. exact X.
  - destruct S as [S _]. apply parse_tokens_errors in E; auto.
    assert (P : exists cs', program_errors trailing toks' cs' /\ map c_message cs = map c_message cs').
    { unfold program_errors in *. destruct (before_end toks) as [t|] eqn:B; [|congruence].
      destruct (before_end toks') as [u|] eqn:B'.
      - eapply reports_renamed; eauto.
      - exfalso. assert (L : length toks = length toks') by (clear - W; induction W; cbn; congruence).
        clear - L B B'. revert toks' L B'. induction toks as [|a [|b [|c i]] IH]; intros [|a' [|b' [|c' i']]] L B';
          try discriminate. apply (IH B (b' :: c' :: i')); auto. }
    destruct P as (cs' & P & M).
    apply (parse_tokens_errors _ _ oc) in P; auto; [|intros ->; destruct cs; [now apply S|discriminate M]].
    rewrite P. exact M.
Qed.

Theorem parse_expression_tokens_renamed toks toks' trailing oc : tokens_ok toks -> tokens_ok toks' -> new_words r toks toks' ->
  renamed_expression r (parse_expression_tokens toks trailing oc) (parse_expression_tokens toks' trailing oc).
Proof.
  intros OK OK' W. assert (A : fit r toks toks') by (split; [exact W|now apply ok_values]).
  assert (LE : List.length toks = List.length toks') by (clear - W; induction W; cbn; congruence).
  destruct (Nat.eq_dec (List.length toks) 1) as [L|L].
  - rewrite (parse_expression_empty toks trailing oc OK L), (parse_expression_empty toks' trailing oc OK') by congruence.
    destruct oc; cbn; auto.
  - assert (L' : List.length toks' <> 1) by congruence.
    destruct (parse_expression_spec toks trailing oc OK L) as ([e|cs] & E & S); rewrite E.
    + destruct S as (eof & K & D).
      destruct (derives_renamed r RA _ _ _ _ _ _ D toks' Expression W eq_refl) as (v' & s & D' & W' & X).
      destruct v'; cbn in X; try discriminate X. injection X as X.
      apply new_cons in W'. destruct W' as (u & s' & -> & (T & _) & W'). inversion W'; subst.
      assert (E' : parse_expression_tokens toks' trailing oc = Done (Ok e0)).
      { apply parse_expression_exact; auto. exists u. split; auto. congruence. }
      rewrite E'. exact X.
    + apply parse_expression_errors in E; auto. destruct E as (c & -> & t & f & B & R & ->).
      assert (PP : exists u, before_end toks' = Some u).
      { destruct (before_end toks') as [u|] eqn:B'; [eauto|]. exfalso. clear - LE B B'.
        revert toks' LE B'. induction toks as [|a [|b [|c i]] IH]; intros [|a' [|b' [|c' i']]] L B';
          try discriminate. apply (IH B (b' :: c' :: i')); auto. }
      destruct PP as (u & B').
      destruct (rejects_renamed r RA _ _ u _ _ _ _ R [Sub Expression; need [Eof] "Expected end of file"] toks') as (g & G & C & _); auto.
      { repeat constructor. }
      assert (E' : parse_expression_tokens toks' trailing oc = Done (Err [f_cause g])).
      { apply parse_expression_errors; auto. exists (f_cause g). split; auto. exists u, g. auto. }
      rewrite E'. cbn. now rewrite C.
Qed.

(** ** Layout *)
Definition this_text (e : elem) : Prop := match e with Tok This t _ _ => sconcat t = "this" | _ => True end.
Definition pe (p q : placed) : Prop := renamed_elem r (snd p) (snd q) /\ this_text (snd p).
Definition le (l m : line) : Prop :=
  Forall2 pe (body l) (body m) /\
  match ending l, ending m with
  | ByNewline _, ByNewline _ => True
  | ByContinuation e, ByContinuation f => e = f
  | ByEof, ByEof => True
  | _, _ => False
  end.
Lemma split_renamed (ps qs : list placed) : Forall2 pe ps qs -> forall acc acc' : list placed, Forall2 pe acc acc' ->
  Forall2 le (split_lines acc ps) (split_lines acc' qs).
Proof.
  induction 1 as [|[b e] [b' e'] ps qs X F IH]; intros acc acc' A.
  - repeat constructor. exact A.
  - assert (P : Forall2 pe (acc ++ [(b, e)]) (acc' ++ [(b', e')])) by (apply Forall2_app; auto).
    destruct X as [X _]. cbn in X. inversion X; subst; cbn; try (apply IH; exact P).
    destruct e'; try contradiction; cbn; try (apply IH; exact P); (constructor; [split; cbn; auto|apply IH; constructor]).
Qed.
Lemma blank_new e e' : renamed_elem r e e' -> is_blank e = is_blank e'.
Proof. now destruct 1. Qed.
Lemma white_new e e' : renamed_elem r e e' -> is_whitespace e = is_whitespace e'.
Proof. now destruct 1. Qed.
Lemma leading_renamed (ps qs : list placed) : Forall2 pe ps qs ->
  Forall2 pe (leading ps) (leading qs) /\ Forall2 pe (content ps) (content qs).
Proof.
  induction 1 as [|[b e] [b' e'] ps qs X F (I1 & I2)]; [split; constructor|].
  cbn. rewrite (blank_new e e' (proj1 X)). destruct (is_blank e').
  - split; auto.
  - split; constructor; auto.
Qed.
Lemma indentation_renamed (ps qs : list placed) : Forall2 pe ps qs -> indentation ps = indentation qs.
Proof.
  intros F. apply leading_renamed in F. destruct F as [F _]. unfold indentation.
  assert (G : List.length (filter is_space (leading ps)) = List.length (filter is_space (leading qs))); [|now rewrite G].
  induction F as [|[b e] [b' e'] xs ys [X _] F IH]; auto. cbn in X. cbn [filter].
  assert (S : is_space (b, e) = is_space (b', e')) by (inversion X; subst; auto).
  rewrite S. destruct (is_space (b', e')); cbn; congruence.
Qed.
Lemma tokens_renamed (ps qs : list placed) : Forall2 pe ps qs -> forall prev prev', abuts prev = abuts prev' ->
  new_words r (elems_tokens prev ps) (elems_tokens prev' qs).
Proof.
  induction 1 as [|[b e] [b' e'] ps qs [X TH] F IH]; intros prev prev' A; [constructor|].
  cbn [elems_tokens snd] in *. apply Forall2_app.
  - inversion X; subst; cbn.
    + repeat constructor; auto.
    + repeat constructor; auto. intros [K|[K|[]]]; discriminate.
    + constructor.
    + rewrite A. repeat constructor; cbn; auto. intros [K|[K|[]]].
      * destruct k; try discriminate K; try congruence. revert K; destruct (abuts prev'); discriminate.
      * destruct k; try discriminate K; [revert K; destruct (abuts prev'); discriminate|]. cbn in TH. rewrite TH. apply RA.
    + destruct e'; try contradiction; constructor.
  - apply IH. cbn. f_equal. now apply white_new.
Qed.
Lemma errors_renamed (ps qs : list placed) : Forall2 pe ps qs ->
  map c_message (elems_errors ps) = map c_message (elems_errors qs).
Proof.
  induction 1 as [|[b e] [b' e'] ps qs [X TH] F IH]; [reflexivity|].
  cbn [elems_errors flat_map]. rewrite !map_app. f_equal; [|exact IH]. cbn in X.
  inversion X; subst; try reflexivity. destruct e'; reflexivity.
Qed.
Lemma Forall2_rev {A B} (R : A -> B -> Prop) l m : Forall2 R l m -> Forall2 R (rev l) (rev m).
Proof. induction 1; cbn; auto. apply Forall2_app; auto. Qed.
Lemma continuing_renamed (ps qs : list placed) : Forall2 pe ps qs -> continuing ps = continuing qs.
Proof.
  intros F. apply Forall2_rev in F. unfold continuing.
  destruct F as [|[b e] [b' e'] xs ys [X _] F]; auto. cbn in X. inversion X; subst; auto.
Qed.

Definition layouts_renamed (x y : option (list token * list cause * list N)) : Prop :=
  match x, y with
  | None, None => True
  | Some (t, e, s), Some (t', e', s') =>
    new_words r t t' /\ map c_message e = map c_message e' /\ s = s'
  | _, _ => False
  end.
(** A token that is no name and no string. *)
Lemma plain_word k x y l l' : ~ In k [Identifier; This] -> new_word r (mk_at k x None None l) (mk_at k y None None l').
Proof. intros N. repeat split; auto. intros K. contradiction. Qed.
Lemma words_repeat t u n : new_word r t u -> new_words r (repeat t n) (repeat u n).
Proof. intros W. induction n; cbn; constructor; auto. Qed.
Lemma open_renamed stack joined w p q : pe p q -> layouts_renamed (open_line stack joined w p) (open_line stack joined w q).
Proof.
  destruct p as [b e], q as [b' e']. intros _. unfold open_line.
  assert (I : forall x y l l', new_word r (mk_at Indent x None None l) (mk_at Indent y None None l'))
    by (intros; apply plain_word; cbn; intuition discriminate).
  assert (O : forall x y l l', new_word r (mk_at Outdent x None None l) (mk_at Outdent y None None l'))
    by (intros; apply plain_word; cbn; intuition discriminate).
  destruct (_ =? _)%N; [repeat split; constructor|].
  destruct (_ <? _)%N; [destruct joined; repeat split; repeat constructor; apply I|].
  destruct (filter (fun n => n <=? w)%N stack) as [|n z].
  - split; [now apply words_repeat|]. split; auto. destruct (_ =? _)%N; auto.
  - destruct (_ =? _)%N; cbn; auto. split; auto. now apply words_repeat.
Qed.
Lemma layout_renamed ls ms : Forall2 le ls ms -> forall stack joined prev,
  layouts_renamed (layout stack joined prev ls) (layout stack joined prev ms).
Proof.
  induction 1 as [|l m ls ms [B E] F IH]; intros stack joined prev.
  - repeat split. constructor.
  - cbn [layout]. destruct (leading_renamed _ _ B) as [BL BC].
    assert (J : joins_next joined l = joins_next joined m).
    { unfold joins_next. rewrite (continuing_renamed _ _ B).
      destruct (ending l), (ending m); try contradiction; auto; destruct BC; auto. }
    assert (LE : last_elem l = last_elem m).
    { unfold last_elem. destruct (ending l), (ending m); try contradiction; congruence. }
    assert (TM : new_words r (terminator l) (terminator m)).
    { unfold terminator. rewrite (continuing_renamed _ _ B).
      destruct (ending l), (ending m); try contradiction; try constructor.
      destruct BC as [|[b1 e1] [b2 e2] c1 c2 [X _] BC]; [constructor|].
      assert (CL : is_comment_line ((b1, e1) :: c1) = is_comment_line ((b2, e2) :: c2))
        by (cbn in *; inversion X; subst; auto).
      rewrite CL. destruct (_ || _); repeat constructor. intros [K|[K|[]]]; discriminate. }
    rewrite J, LE.
    assert (O : layouts_renamed
       match content (body l) with
       | nil => Some (nil, nil, stack)
       | first :: _ => open_line stack joined (indentation (body l)) first
       end
       match content (body m) with
       | nil => Some (nil, nil, stack)
       | first :: _ => open_line stack joined (indentation (body m)) first
       end).
    { rewrite (indentation_renamed _ _ B). destruct BC as [|p q c1 c2 X BC]; [repeat split; constructor|now apply open_renamed]. }
    destruct (match content (body l) with nil => _ | _ :: _ => _ end) as [[[op mi] st]|];
    destruct (match content (body m) with nil => _ | _ :: _ => _ end) as [[[op' mi'] st']|];
      cbn in O; try contradiction; [|exact I].
    destruct O as (O1 & O2 & <-).
    specialize (IH st (joins_next joined m) (last_elem m)).
    destruct (layout st (joins_next joined m) (last_elem m) ls) as [[[t e] s]|],
             (layout st (joins_next joined m) (last_elem m) ms) as [[[t' e'] s']|];
      cbn in IH; try contradiction; [|exact I].
    destruct IH as (I1 & I2 & <-). cbn. rewrite !map_app.
    rewrite O2, I2, (errors_renamed _ _ BL), (errors_renamed _ _ BC). split; auto.
    repeat apply Forall2_app; auto. now apply tokens_renamed.
Qed.

(** ** Sources *)
Lemma place_renamed es es' : Forall2 (renamed_elem r) es es' -> Forall this_text es -> forall b b',
  Forall2 pe (place b es) (place b' es').
Proof.
  induction 1 as [|e e' es es' X F IH]; intros T b b'; cbn; constructor; inversion T; subst; auto.
  split; auto.
Qed.
Lemma lexes_this U gs es : lexes U gs es -> Forall this_text es.
Proof.
  induction 1 as [|e rest es L LS IH]; constructor; auto. destruct L; cbn; auto.
  - cbn in H. repeat (destruct H as [H|H]; [injection H as <- <-; exact I|]). contradiction.
  - cbn in H. repeat (destruct H as [H|H]; [injection H as <- <- <-; exact I|]). contradiction.
  - cbn in H. repeat (destruct H as [H|H]; [injection H as <- <- <-; exact I|]). contradiction.
  - destruct k; auto. inversion H4; subst. cbn in H5.
    repeat (destruct H5 as [H5|H5]; [first [discriminate H5|injection H5; intros; now symmetry]|]). contradiction.
Qed.
Definition scans_renamed (x y : outcome (result (list token) parse_error)) : Prop :=
  match x, y with
  | Done (Ok t), Done (Ok t') => new_words r t t'
  | Done (Err cs), Done (Err cs') => map c_message cs = map c_message cs'
  | Diverged, Diverged => True
  | _, _ => False
  end.

Section Source.
Variable U : unicode.
Hypothesis Sn : sane U.
Variables gs gs' : list string.
Variables es es' : list elem.
Hypothesis V : valid_source gs.
Hypothesis V' : valid_source gs'.
Hypothesis L : lexes U gs es.
Hypothesis L' : lexes U gs' es'.
Hypothesis R : Forall2 (renamed_elem r) es es'.

Lemma scan_renamed : scans_renamed (scan_tokens U gs) (scan_tokens U gs').
Proof.
  rewrite (scan_correct U Sn gs es V L), (scan_correct U Sn gs' es' V' L'). unfold scan_spec.
  assert (A := layout_renamed _ _ (split_renamed _ _ (place_renamed _ _ R (lexes_this _ _ _ L) nil nil) nil nil
    (Forall2_nil _)) nil false None).
  destruct (layout nil false None _) as [[[t e] s]|], (layout nil false None _) as [[[t' e'] s']|];
    cbn in A; try contradiction; auto.
  destruct A as (A1 & A2 & <-). destruct e, e'; try discriminate; [|exact A2].
  apply Forall2_app; auto. unfold SpecLayout.closing. apply Forall2_app.
  - apply words_repeat. repeat split; auto. intros [K|[K|[]]]; discriminate.
  - repeat constructor. intros [K|[K|[]]]; discriminate.
Qed.
Theorem parse_renamed trailing oc :
  renamed_program r (parse_with U (fun toks => parse_tokens toks trailing oc) gs)
                    (parse_with U (fun toks => parse_tokens toks trailing oc) gs').
Proof.
  unfold parse_with. pose proof scan_renamed as S.
  destruct (scan_tokens U gs) as [[toks|cs]| | |] eqn:E, (scan_tokens U gs') as [[toks'|cs']| | |] eqn:E';
    cbn in S; try contradiction; cbn [obind]; auto.
  apply parse_tokens_renamed; auto; [exact (source_ok U Sn gs V toks E)|exact (source_ok U Sn gs' V' toks' E')].
Qed.
Theorem parse_expression_renamed oc : renamed_expression r (parse_expression U oc gs) (parse_expression U oc gs').
Proof.
  unfold parse_expression, parse_with. pose proof scan_renamed as S.
  destruct (scan_tokens U gs) as [[toks|cs]| | |] eqn:E, (scan_tokens U gs') as [[toks'|cs']| | |] eqn:E';
    cbn in S; try contradiction; cbn [obind]; auto.
  apply parse_expression_tokens_renamed; auto; [exact (source_ok U Sn gs V toks E)|exact (source_ok U Sn gs' V' toks' E')].
Qed.
End Source.

(** ** Resolving *)
Lemma all_keeps_init : keeps_init r.
Proof.
  intros x. split; intros E; [|subst; apply RA]. apply (proj1 (proj1 RA)). rewrite E. symmetry. apply RA.
Qed.
Theorem resolve_new_names l l' : renamed_trees r l l' -> renamed_resolution r (resolve l) (resolve l').
Proof.
  intros T. pose proof (resolve_same _ _ T) as S.
  rewrite (resolve_renamed r r (proj1 RA) all_keeps_init) in S.
  destruct (resolve l) as [[m|cs]| | |], (resolve l') as [[m'|cs']| | |]; cbn in *; try contradiction; auto.
  clear T. revert cs' S. induction cs as [|c cs IH]; intros cs' S; inversion S; subst; [split; reflexivity|].
  match goal with X : same_message _ _ |- _ => destruct X as [X Y] end.
  destruct (IH l'0) as [A B]; auto. cbn in *. split; congruence.
Qed.

(** ** Texts *)
Section Texts.
Variable U : unicode.
Hypothesis CO : forall c, u_alphabetic U c = true -> u_alphanumeric U c = true.
Variable R : list string -> list string.
Definition name_start (g : string) : Prop := ~ In g special /\ ~ digit_cluster g /\ starts_word U g.
Definition heads (x y : list string) : Prop :=
  match x, y with
  | nil, nil => True
  | g :: _, h :: _ => g = h \/ (name_start g /\ name_start h)
  | _, _ => False
  end.
Lemma start_continues g : starts_word U g -> continues_word U g.
Proof. intros (c & F & [A|A]); exists c; split; auto. Qed.
Lemma lexeme_nonempty e rest : lexeme U e rest -> elem_text e <> nil.
Proof. destruct 1; cbn; try discriminate. - now destruct ds. - destruct ds; discriminate. Qed.
Lemma name_text text s x rest : lexeme U (Tok Identifier text s x) rest -> exists g t, text = g :: t /\ name_start g.
Proof.
  inversion 1; subst.
  - match goal with I : In _ punctuation |- _ => cbn in I; intuition discriminate end.
  - match goal with I : In _ eq_operators |- _ => cbn in I; intuition discriminate end.
  - match goal with I : In _ eq_operators |- _ => cbn in I; intuition discriminate end.
  - exists g, gs. repeat split; auto.
Qed.
Lemma dot_alone e rest t : lexeme U e rest -> elem_text e = "." :: t -> t = nil.
Proof.
  destruct 1; cbn; intros E; try discriminate; try (injection E as -> <-); auto.
  - exfalso. cbn in H. intuition discriminate.
  - exfalso. destruct ds; [congruence|]. injection E as -> <-. inversion H0; subst.
    match goal with D : digit_cluster "." |- _ => cbn in D; intuition discriminate end.
  - exfalso. destruct ds; [congruence|]. injection E as -> <-. inversion H0; subst.
    match goal with D : digit_cluster "." |- _ => cbn in D; intuition discriminate end.
  - exfalso. apply H. cbn. tauto.
Qed.
Definition named (e : elem) : Prop := match e with Tok Identifier text _ _ => is_name U (R text) | _ => True end.
Lemma heads_texts es : lexes U (text_of es) es -> Forall named es ->
  heads (text_of es) (text_of (map (rename_elem R) es)).
Proof.
  intros L N. destruct es as [|e es]; [exact I|]. inversion L as [|? rest ? L1 L2 E]; subst.
  apply app_inv_head in E. subst. inversion N as [|? ? Ne _]; subst. cbn [map text_of flat_map].
  assert (NE := lexeme_nonempty _ _ L1).
  assert (Same : rename_elem R e = e -> heads (elem_text e ++ flat_map elem_text es)
    (elem_text (rename_elem R e) ++ flat_map elem_text (map (rename_elem R) es))).
  { intros ->. destruct (elem_text e); [congruence|]. now left. }
  destruct e as [k text s x| | | | | | | | |]; try (apply Same; reflexivity).
  destruct k; try (apply Same; reflexivity).
  destruct (name_text _ _ _ _ L1) as (g & t & -> & G). cbn in *.
  destruct (R (g :: t)) as [|h u]; [contradiction|]. right. split; auto. repeat split; apply Ne.
Qed.
Lemma next_heads (P : string -> Prop) x y : heads x y -> (forall g, name_start g -> ~ P g) ->
  next_not P x -> next_not P y.
Proof. destruct x, y; cbn; try contradiction; auto. intros [<-|[A B]] H; auto. Qed.
Lemma next_heads_same (P : string -> Prop) x y : heads x y -> (forall g, name_start g -> P g) ->
  next_not P x -> next_not P y.
Proof. destruct x, y; cbn; try contradiction; auto. intros [<-|[A B]] H N; auto. Qed.
Lemma not_special g h : name_start g -> In h special -> h <> g.
Proof. intros (A & _) I ->. contradiction. Qed.

Lemma next_newline x y : heads x y -> next_not (fun g => g <> s_nl) x -> next_not (fun g => g <> s_nl) y.
Proof.
  destruct x as [|g x], y as [|h y]; cbn; try contradiction; auto. intros [<-|[(A & _) _]] Z; auto.
  intros _. destruct A. destruct (String.string_dec g s_nl) as [->|D]; [cbn; tauto|contradiction].
Qed.

Theorem lexes_rewritten es : lexes U (text_of es) es -> Forall named es ->
  lexes U (text_of (map (rename_elem R) es)) (map (rename_elem R) es).
Proof.
  induction es as [|e es IH]; intros L N; [constructor|].
  inversion L as [|? rest ? L1 L2 E]; subst. apply app_inv_head in E. subst.
  inversion N as [|? ? Ne N']; subst. cbn [map].
  assert (H := heads_texts es L2 N').
  apply (LexCons U (rename_elem R e)); [|now apply IH].
  change (lexeme U (rename_elem R e) (text_of (map (rename_elem R) es))).
  set (y := text_of (map (rename_elem R) es)) in *.
  assert (Eq : next_not (eq "=") (text_of es) -> next_not (eq "=") y).
  { apply next_heads; auto. intros g G. apply not_special; auto. cbn. tauto. }
  assert (Sl : next_not (eq "/") (text_of es) -> next_not (eq "/") y).
  { apply next_heads; auto. intros g G. apply not_special; auto. cbn. tauto. }
  assert (Nl : next_not (eq s_nl) (text_of es) -> next_not (eq s_nl) y).
  { apply next_heads; auto. intros g G. apply not_special; auto. cbn. tauto. }
  assert (Dg : next_not digit_cluster (text_of es) -> next_not digit_cluster y).
  { apply next_heads; auto. now intros g (_ & G & _). }
  assert (Wd : next_not (continues_word U) (text_of es) -> next_not (continues_word U) y).
  { apply next_heads_same; auto. intros g (_ & _ & G). now apply start_continues. }
  assert (K : (exists text s x, e = Tok Identifier text s x) \/ rename_elem R e = e).
  { destruct e as [k text s x| | | | | | | | |]; auto. destruct k; auto. left. eauto. }
  destruct K as [(text & s & x & ->)|K].
  - cbn in *. destruct (R text) as [|g gs] eqn:ER; [contradiction|]. destruct Ne as (A1 & A2 & A3 & A4 & A5).
    assert (X : next_not (continues_word U) (text_of es) /\ s = None /\ x = None).
    { destruct (name_text _ _ _ _ L1) as (g' & t & -> & G). inversion L1; subst; auto;
        try (match goal with I : In _ _ |- _ => cbn in I; intuition discriminate end). }
    destruct X as (X & -> & ->). apply LWord; auto. now apply WIdentifier.
  - rewrite K. clear K Ne. inversion L1; subst; try (econstructor; eauto; fail).
    + apply LComment; auto. eapply next_newline; eauto.
    + match goal with Z : nil = text_of es |- _ => rewrite <- Z in H end. assert (Ny : y = nil) by (destruct y; [reflexivity|contradiction]). rewrite Ny. now apply LOpenString.
    + apply LInteger; auto. intros (d & z & Ey & D). match goal with Z : ~ exists _ _, _ |- _ => apply Z end.
      destruct es as [|e1 es]; [discriminate|]. inversion L2 as [|? rest ? L3 L4 E]; subst. apply app_inv_head in E. subst.
      inversion N' as [|? ? Ne1 N2]; subst.
      assert (HH := heads_texts es L4 N2).
      assert (NE := lexeme_nonempty _ _ L3).
      assert (T1 : elem_text e1 = ["."] /\ rename_elem R e1 = e1).
      { clear Eq Sl Nl Dg Wd. rewrite Ey in H. cbn [text_of flat_map] in H.
        destruct (elem_text e1) as [|g t] eqn:ET; [congruence|]. cbn in H.
        destruct H as [->|[_ (B & _)]]; [|destruct B; cbn; tauto].
        rewrite (dot_alone _ _ _ L3 ET). split; auto.
        destruct e1 as [k1 text s x0| | | | | | | | |]; auto. destruct k1; auto. cbn in ET. subst.
        destruct (name_text _ _ _ _ L3) as (g' & t' & E' & (B & _)). injection E' as <- _. destruct B. cbn. tauto. }
      destruct T1 as [T1 T2]. unfold y in Ey. cbn in Ey. rewrite T2, T1 in Ey. cbn in Ey. injection Ey as Ey.
      cbn. rewrite T1. cbn. unfold text_of in HH. rewrite Ey in HH.
      destruct (flat_map elem_text es) as [|d' z']; [contradiction|]. exists d', z'. split; auto.
      destruct HH as [->|[_ (_ & B & _)]]; auto. contradiction.
    + apply LStrayBackslash. eapply next_heads; [exact H| |assumption].
      intros g (G & _) Z. apply G. cbn. destruct Z as [->|[->| ->]]; tauto.
Qed.
Lemma rewritten_elem e rest : lexeme U e rest -> rewrites U R r e -> renamed_elem r e (rename_elem R e).
Proof.
  intros L W. destruct e as [k text s x| | | | | | | | |]; try (apply re_blank; exact I).
  destruct (tt_eqb k Identifier) eqn:KI.
  - destruct k; try discriminate KI. cbn in W. assert (s = None) as -> by (inversion L; auto).
    apply re_name. apply W.
  - assert (E : rename_elem R (Tok k text s x) = Tok k text s x) by (destruct k; auto; discriminate KI).
    rewrite E. destruct (tt_eqb k TString) eqn:KS.
    + destruct k; try discriminate KS. assert (Q : exists v, s = Some v).
      { inversion L; subst; eauto;
          try (match goal with I : In _ _ |- _ => cbn in I; exfalso; intuition discriminate end).
        match goal with I : word_kind _ _ |- _ => inversion I; subst end.
        match goal with I : In _ reserved |- _ => cbn in I; exfalso; intuition discriminate end. }
      destruct Q as (v & ->). cbn in W. rewrite <- W at 2. apply re_string.
    + assert (s = None) as -> by (inversion L; subst; auto; discriminate KS).
      apply re_other; intros ->; discriminate.
Qed.
Lemma rewritten_elems gs es : lexes U gs es -> Forall (rewrites U R r) es ->
  Forall2 (renamed_elem r) es (map (rename_elem R) es).
Proof.
  induction 1 as [|e rest es L LS IH]; intros W; inversion W; subst; constructor; auto.
  eapply rewritten_elem; eauto.
Qed.
Lemma rewritten_valid es : valid_source (text_of es) -> Forall (rewrites U R r) es ->
  valid_source (text_of (map (rename_elem R) es)).
Proof.
  induction es as [|e es IH]; intros V W; [constructor|]. inversion W; subst. cbn in *.
  apply Forall_app in V. destruct V as [V1 V2]. apply Forall_app. split; [|now apply IH].
  destruct e as [k text s x| | | | | | | | |]; auto. destruct k; auto. cbn in *. tauto.
Qed.
Lemma rewrites_named es : Forall (rewrites U R r) es -> Forall named es.
Proof. apply Forall_impl. intros [[] | | | | | | | | |]; cbn; tauto. Qed.

Section Rewritten.
Variable gs : list string.
Variable es : list elem.
Hypothesis Sn : sane U.
Hypothesis V : valid_source gs.
Hypothesis L : lexes U gs es.
Hypothesis W : Forall (rewrites U R r) es.
Theorem parse_rewritten trailing oc :
  renamed_program r (parse_with U (fun toks => parse_tokens toks trailing oc) gs)
    (parse_with U (fun toks => parse_tokens toks trailing oc) (text_of (map (rename_elem R) es))).
Proof.
  assert (E := lexes_text _ _ _ L). rewrite E in *.
  apply (parse_renamed U Sn _ _ es (map (rename_elem R) es)); auto.
  - now apply rewritten_valid.
  - apply lexes_rewritten; auto. now apply rewrites_named.
  - eapply rewritten_elems; eauto.
Qed.
End Rewritten.
End Texts.
End Rename.
