(** The scanner properties, in the form in which P_Scanner.v states them. *)
From Verif Require Import Base F64 Token Scanner SpecLex SpecLayout SpecScan
  StrFacts ScanLex ScanStep ScanCluster ScanLayout ScanUnique ScanProps
  ScanErrors ScanPairs Segment.

(** ** Sample sources *)
Definition elements (s : string) : list elem :=
  lex_all sample_unicode (length (segment s)) (segment s).
Lemma elements_lex s : lexes sample_unicode (segment s) (elements s).
Proof. apply lex_all_sound. lia. Qed.
Lemma sample_sane : sane sample_unicode.
Proof. reflexivity. Qed.
Definition starts_charb (g : string) : bool :=
  match g with
  | EmptyString => false
  | String c _ => (N_of_ascii c <? 128)%N || (192 <=? N_of_ascii c)%N
  end.
Lemma check_valid gs : forallb starts_charb gs = true -> valid_source gs.
Proof.
  intros H. apply Forall_forall. intros g I. rewrite forallb_forall in H.
  specialize (H g I). destruct g; [discriminate|]. cbn in *.
  apply orb_prop in H. destruct H as [H|H].
  - left. now apply N.ltb_lt.
  - right. now apply N.leb_le.
Qed.
(** Decide [some_line between_levels] on a sample. *)
Definition line_of (n : nat) (es : list elem) : list line * line :=
  (firstn n (source_lines es), nth n (source_lines es) (mkLine nil ByEof)).
Lemma some_line_at (p : list line -> line -> Prop) es n :
  n < length (source_lines es) ->
  p (fst (line_of n es)) (snd (line_of n es)) -> some_line p es.
Proof.
  intros L P. exists (firstn n (source_lines es)), (nth n (source_lines es) (mkLine nil ByEof)),
    (skipn (S n) (source_lines es)). split; [|exact P].
  symmetry. etransitivity; [|apply (firstn_skipn n)]. f_equal.
  clear P. revert L. generalize (source_lines es) as ls. induction n as [|n IH]; intros [|l ls] L;
    cbn in *; try lia; [reflexivity|]. apply IH. lia.
Qed.

Section Final.
Variable U : unicode.
Hypothesis Sn : sane U.

Lemma diverges_iff gs es : valid_source gs -> lexes U gs es ->
  (scan_tokens U gs = Diverged <-> some_line between_levels es) /\
  (~ some_line between_levels es -> exists r, scan_tokens U gs = Done r).
Proof.
  intros V L. destruct (scan_cases U gs es Sn V L) as [[B E]|[B E]]; rewrite E.
  - split; [tauto|]. intros. contradiction.
  - split; [split; [discriminate|contradiction]|]. eauto.
Qed.

Lemma never_panics gs : valid_source gs ->
  (exists r, scan_tokens U gs = Done r) \/ scan_tokens U gs = Diverged.
Proof.
  intros V. destruct (lexes_total U gs) as [es L].
  destruct (scan_cases U gs es Sn V L) as [[B E]|[B E]]; eauto.
Qed.

Lemma ends_in_eof gs toks : valid_source gs ->
  scan_tokens U gs = Done (Ok toks) ->
  exists pre l c, toks = pre ++ [mkToken Eof "" None None l c] /\
                  Forall (fun t => t_type t <> Eof) pre.
Proof.
  intros V H. destruct (lexes_total U gs) as [es L].
  destruct (ok_eof U gs es Sn V L toks H) as (pre & E & F). eauto.
Qed.

Lemma balanced gs toks : valid_source gs ->
  scan_tokens U gs = Done (Ok toks) ->
  (forall pre post, toks = pre ++ post -> count_kind Outdent pre <= count_kind Indent pre) /\
  count_kind Outdent toks = count_kind Indent toks.
Proof.
  intros V H. destruct (lexes_total U gs) as [es L]. split.
  - intros pre post E. exact (proj1 (ok_balanced U gs es Sn V L toks pre post H E)).
  - exact (proj2 (ok_balanced U gs es Sn V L toks toks nil H (eq_sym (app_nil_r _)))).
Qed.

Lemma elems_tokens_locs (ps : list placed) : forall prev,
  map tloc (elems_tokens prev ps)
  = map (fun p => position (fst p)) (filter (fun p => is_tok (snd p)) ps).
Proof.
  induction ps as [|[b e] ps IH]; intros prev; [reflexivity|].
  cbn [elems_tokens snd filter]. rewrite map_app, IH.
  destruct e; cbn; reflexivity.
Qed.
Lemma elems_tokens_lexemes (ps : list placed) : forall prev,
  map t_lexeme (elems_tokens prev ps)
  = map (fun p => sconcat (elem_text (snd p))) (filter (fun p => is_tok (snd p)) ps).
Proof.
  induction ps as [|[b e] ps IH]; intros prev; [reflexivity|].
  cbn [elems_tokens snd filter]. rewrite map_app, IH.
  destruct e; cbn; reflexivity.
Qed.

Lemma tokens_of_layout ls : forall pre t,
  (forall l, In l ls -> text_kinds (body l)) ->
  In t (tokens_of pre ls) -> is_layout (t_type t) = true ->
  t_type t <> Eof /\
  exists a l b, ls = a ++ l :: b /\ (In t (opening (pre ++ a) l) \/ In t (terminator l)).
Proof.
  induction ls as [|l ls IH]; intros pre t K I Ly; cbn in I; [contradiction|].
  apply in_app_or in I. destruct I as [I|I].
  { split.
    - unfold opening in I. destruct (content (body l)) as [|[b e] c]; [contradiction|].
      destruct (_ <? _)%N.
      + destruct (is_joined pre); [contradiction|]. destruct I as [<-|[]]. discriminate.
      + apply repeat_spec in I. subst. discriminate.
    - exists nil, l, ls. rewrite app_nil_r. auto. }
  apply in_app_or in I. destruct I as [I|I].
  { exfalso. pose proof (elems_tokens_text (body l) (before_next pre) (K l (or_introl eq_refl))) as F.
    rewrite Forall_forall in F. specialize (F t I). unfold from_text in F.
    now rewrite Ly in F. }
  apply in_app_or in I. destruct I as [I|I].
  { split.
    - pose proof (terminator_kinds l) as F. rewrite Forall_forall in F.
      rewrite (F t I). discriminate.
    - exists nil, l, ls. auto. }
  destruct (IH (pre ++ [l]) t) as (E & a & l' & b & -> & X); auto.
  { intros l0 H. apply K. now right. }
  split; [exact E|]. exists (l :: a), l', b. split; [reflexivity|].
  rewrite <- app_assoc in X. exact X.
Qed.

Lemma positions gs es toks : valid_source gs -> lexes U gs es ->
  scan_tokens U gs = Done (Ok toks) ->
  map tloc (filter from_text toks)
    = map (fun p => position (fst p)) (filter (fun p => is_tok (snd p)) (place nil es)) /\
  (forall t, In t toks -> t_type t = Indent \/ t_type t = Outdent ->
     (exists l before e r, In l (source_lines es) /\
        content (body l) = (before, e) :: r /\ tloc t = position before) \/
     (t_lexeme t = "" /\
      tloc t = mkLoc (loc_line (position gs)) (N.min 65534 (loc_column (position gs))))) /\
  (forall t, In t toks -> t_type t = Terminator ->
     exists l before, In l (source_lines es) /\ ending l = ByNewline before /\
       tloc t = position before).
Proof.
  intros V L H. split; [|].
  { rewrite (ok_text_tokens U gs es Sn V L toks H). apply elems_tokens_locs. }
  destruct (scan_ok U gs es Sn V L toks H) as (-> & _ & _). unfold scanned_tokens.
  pose proof (bodies_text U gs es L) as BT.
  split.
  - intros t I K. apply in_app_or in I. destruct I as [I|I].
    + destruct (tokens_of_layout (source_lines es) nil t BT I) as (_ & a & l & b & E & X).
      { destruct K as [-> | ->]; reflexivity. }
      destruct X as [X|X].
      * left. cbn [app] in X. unfold opening in X.
        destruct (content (body l)) as [|[before e] r] eqn:C; [contradiction|].
        exists l, before, e, r. rewrite E. split; [apply in_elt|]. split; [exact C|].
        destruct (_ <? _)%N.
        -- destruct (is_joined a); [contradiction|]. destruct X as [<-|[]]. reflexivity.
        -- apply repeat_spec in X. now subst.
      * exfalso. pose proof (terminator_kinds l) as F. rewrite Forall_forall in F.
        rewrite (F t X) in K. destruct K; discriminate.
    + right. unfold closing in I. apply in_app_or in I. destruct I as [I|[<-|[]]].
      * apply repeat_spec in I. subst. auto.
      * destruct K; discriminate.
  - intros t I K. apply in_app_or in I. destruct I as [I|I].
    + destruct (tokens_of_layout (source_lines es) nil t BT I) as (_ & a & l & b & E & X).
      { rewrite K. reflexivity. }
      destruct X as [X|X].
      * exfalso. unfold opening in X. destruct (content (body l)) as [|[bb e] c]; [contradiction|].
        destruct (_ <? _)%N.
        -- destruct (is_joined _); [contradiction|]. destruct X as [<-|[]]. discriminate.
        -- apply repeat_spec in X. now subst.
      * exists l. unfold terminator in X. rewrite E.
        destruct (ending l) as [before| |]; try contradiction.
        exists before. split; [apply in_elt|]. split; [reflexivity|].
        destruct (content (body l)); [contradiction|].
        destruct (_ || _); [contradiction|]. destruct X as [<-|[]]. reflexivity.
    + exfalso. unfold closing in I. apply in_app_or in I. destruct I as [I|[<-|[]]].
      * apply repeat_spec in I. now subst.
      * discriminate.
Qed.

Lemma ok_legal gs es toks : valid_source gs -> lexes U gs es ->
  scan_tokens U gs = Done (Ok toks) -> forall e, In e es -> is_illegal e = false.
Proof.
  intros V L H e I. destruct (scan_ok U gs es Sn V L toks H) as (_ & E & _).
  destruct (is_illegal e) eqn:K; [|reflexivity]. exfalso.
  revert E. apply errors_exist. left. eauto.
Qed.

Lemma lossless gs es toks : valid_source gs -> lexes U gs es ->
  scan_tokens U gs = Done (Ok toks) ->
  gs = flat_map elem_text es /\
  (forall e, In e es -> is_illegal e = false) /\
  map t_lexeme (filter from_text toks)
    = map (fun e => sconcat (elem_text e)) (filter is_tok es).
Proof.
  intros V L H. split; [exact (lexes_text _ _ _ L)|].
  split; [exact (ok_legal gs es toks V L H)|].
  rewrite (ok_text_tokens U gs es Sn V L toks H), elems_tokens_lexemes.
  rewrite <- (map_snd_place es nil) at 2. generalize (place nil es) as ps.
  induction ps as [|[b e] ps IH]; [reflexivity|]. cbn.
  destruct (is_tok e); cbn; congruence.
Qed.

Lemma words gs toks t : valid_source gs -> scan_tokens U gs = Done (Ok toks) ->
  In t toks -> is_word_kind (t_type t) = true ->
  exists before g cs rest,
    stands_for gs t before (g :: cs) rest /\
    starts_word U g /\ Forall (continues_word U) cs /\
    next_not (continues_word U) rest /\ word_kind (t_lexeme t) (t_type t) /\
    t_string t = None /\ t_float t = None.
Proof.
  intros V H I K. destruct (lexes_total U gs) as [es L].
  assert (F : from_text t = true) by (unfold from_text; destruct (t_type t); auto; discriminate).
  destruct (token_origin U gs es toks t Sn V L H I F)
    as (a & k & text & str & num & c & rest & E & G & Lx & T).
  assert (KK : is_word_kind k = true).
  { rewrite T in K. cbn in K. destruct k; auto; destruct (abuts _); discriminate. }
  destruct (word_lexeme U k text str num rest Lx KK) as (-> & -> & g & cs & -> & S1 & S2 & S3 & S4).
  exists (text_of a), g, cs, rest.
  assert (TK : t_type t = k).
  { rewrite T. cbn. destruct k; auto; discriminate. }
  rewrite TK. rewrite T. cbn.
  unfold stands_for. rewrite G. repeat split; auto.
Qed.

Lemma numbers gs toks t : valid_source gs -> scan_tokens U gs = Done (Ok toks) ->
  In t toks -> t_type t = Number ->
  exists before text rest ds x,
    stands_for gs t before text rest /\ t_string t = None /\ t_float t = Some x /\
    parse_f64 (t_lexeme t) = Some x /\
    ds <> nil /\ Forall digit_cluster ds /\ next_not digit_cluster rest /\
    ((text = ds /\ ~ exists d r, rest = "." :: d :: r /\ digit_cluster d) \/
     exists fs, fs <> nil /\ Forall digit_cluster fs /\ text = ds ++ "." :: fs).
Proof.
  intros V H I K. destruct (lexes_total U gs) as [es L].
  assert (F : from_text t = true) by (unfold from_text; rewrite K; auto).
  destruct (token_origin U gs es toks t Sn V L H I F)
    as (a & k & text & str & num & c & rest & E & G & Lx & T).
  assert (KK : k = Number).
  { rewrite T in K. cbn in K. destruct k; auto; try discriminate; destruct (abuts _); discriminate. }
  subst k. destruct (number_lexeme U text str num rest Lx)
    as (ds & x & -> & -> & P & D1 & D2 & D3 & D4).
  exists (text_of a), text, rest, ds, x. rewrite T. cbn. unfold stands_for. auto 10.
Qed.

Lemma strings gs toks t : valid_source gs -> scan_tokens U gs = Done (Ok toks) ->
  In t toks -> t_type t = TString ->
  exists before text rest,
    stands_for gs t before (s_quote :: text ++ [s_quote]) rest /\
    ~ In s_quote text /\ t_string t = Some (sconcat text) /\ t_float t = None.
Proof.
  intros V H I K. destruct (lexes_total U gs) as [es L].
  assert (F : from_text t = true) by (unfold from_text; rewrite K; auto).
  destruct (token_origin U gs es toks t Sn V L H I F)
    as (a & k & text & str & num & c & rest & E & G & Lx & T).
  assert (KK : k = TString).
  { rewrite T in K. cbn in K. destruct k; auto; try discriminate; destruct (abuts _); discriminate. }
  subst k. destruct (string_lexeme U text str num rest Lx) as (-> & body & -> & Q & ->).
  exists (text_of a), body, rest. rewrite T. cbn [t_string t_float mk_at].
  unfold stands_for. repeat split; auto. intros J. rewrite Forall_forall in Q.
  now apply (Q _ J).
Qed.

(** At the start of an element, a quote without a later quote is an error. *)
Lemma unterminated gs a c rest toks : valid_source gs -> lexes U gs (a ++ c) ->
  gs = text_of a ++ s_quote :: rest -> ~ In s_quote rest ->
  scan_tokens U gs <> Done (Ok toks).
Proof.
  intros V L G N H. destruct (lexes_app_inv U a gs c L) as (gs' & E' & L').
  rewrite E' in G. apply app_inv_head in G. subst gs'.
  destruct c as [|e c]; [inversion L'|].
  assert (F : Forall (fun g => g <> s_quote) rest)
    by (apply Forall_forall; intros g I ->; contradiction).
  assert (X : e = OpenString (s_quote :: rest)).
  { apply (lexes_front U _ nil e c _ (LOpenString U rest F) L').
    cbn. now rewrite app_nil_r. }
  subst e.
  pose proof (ok_legal gs _ toks V L H _ (in_elt _ a c)). discriminate.
Qed.

Lemma operators gs toks t : valid_source gs -> scan_tokens U gs = Done (Ok toks) ->
  In t toks ->
  match t_type t with
  | Bang => exists b r, stands_for gs t b ["!"] r /\ next_not (eq "=") r
  | Equal => exists b r, stands_for gs t b ["="] r /\ next_not (eq "=") r
  | Less => exists b r, stands_for gs t b ["<"] r /\ next_not (eq "=") r
  | Greater => exists b r, stands_for gs t b [">"] r /\ next_not (eq "=") r
  | Slash => exists b r, stands_for gs t b ["/"] r /\ next_not (eq "/") r
  | BangEqual => exists b r, stands_for gs t b ["!"; "="] r
  | EqualEqual => exists b r, stands_for gs t b ["="; "="] r
  | LessEqual => exists b r, stands_for gs t b ["<"; "="] r
  | GreaterEqual => exists b r, stands_for gs t b [">"; "="] r
  | _ => True
  end.
Proof.
  intros V H I. destruct (lexes_total U gs) as [es L].
  destruct (from_text t) eqn:F.
  2:{ unfold from_text in F. destruct (t_type t); auto; discriminate. }
  destruct (token_origin U gs es toks t Sn V L H I F)
    as (a & k & text & str & num & c & rest & E & G & Lx & T).
  apply open_lexeme in Lx. rewrite T. unfold stands_for.
  destruct k; cbn; auto;
    try (subst text; exists (text_of a), rest; rewrite G; auto; fail);
    try (destruct Lx as [-> Lx]; exists (text_of a), rest; rewrite G; auto; fail).
  destruct (abuts _); exact Logic.I.
Qed.

Lemma longest_match gs a c g k1 k2 rest :
  lexes U gs (a ++ c) ->
  (gs = text_of a ++ g :: "=" :: rest -> In (g, k1, k2) eq_operators ->
   exists c', c = Tok k2 [g; "="] None None :: c') /\
  (gs = text_of a ++ "/" :: "/" :: rest ->
   exists body r c', c = Comment ("/" :: "/" :: body) :: c' /\
     rest = body ++ r /\ ~ In s_nl body /\ (r = nil \/ exists r', r = s_nl :: r')).
Proof.
  intros L. split.
  - intros E I. eapply longest_operator; eauto.
  - intros E. destruct (comment_start U gs a c rest L E) as (body & c' & -> & F & r & -> & N).
    exists body, r, c'. repeat split; auto.
    + intros J. rewrite Forall_forall in F. now apply (F _ J).
    + destruct r as [|g' r]; [auto|]. right. cbn in N.
      destruct (String.string_dec g' s_nl) as [->|D]; [eauto|contradiction].
Qed.

Lemma parentheses gs es toks : valid_source gs -> lexes U gs es ->
  scan_tokens U gs = Done (Ok toks) ->
  (forall a c, es = a ++ Tok LeftParen ["("] None None :: c ->
     In (mk_at (if abuts (last_elem_of None a) then LeftParenAbutting else LeftParen)
               "(" None None (position (text_of a))) toks) /\
  (forall t, In t toks -> t_type t = LeftParen \/ t_type t = LeftParenAbutting ->
     exists a c, es = a ++ Tok LeftParen ["("] None None :: c /\
       t = mk_at (if abuts (last_elem_of None a) then LeftParenAbutting else LeftParen)
               "(" None None (position (text_of a))).
Proof.
  intros V L H. split.
  - intros a c ->. pose proof (ok_text_tokens U gs _ Sn V L toks H) as E.
    assert (I : In (mk_at (if abuts (last_elem_of None a) then LeftParenAbutting else LeftParen)
               "(" None None (position (text_of a))) (filter from_text toks)).
    { rewrite E. apply elems_tokens_in. left. reflexivity. }
    apply filter_In in I. apply I.
  - intros t I K.
    assert (F : from_text t = true) by (unfold from_text; destruct K as [-> | ->]; auto).
    destruct (token_origin U gs es toks t Sn V L H I F)
      as (a & k & text & str & num & c & rest & E & G & Lx & T).
    assert (NK : k <> LeftParenAbutting) by (apply (lexeme_kind U _ _ _ _ _ Lx)).
    assert (KK : k = LeftParen).
    { rewrite T in K. cbn in K. destruct k; auto; destruct K; congruence. }
    subst k. destruct (paren_lexeme U text str num rest Lx) as (-> & -> & ->).
    exists a, c. auto.
Qed.

Lemma terminators gs es toks : valid_source gs -> lexes U gs es ->
  scan_tokens U gs = Done (Ok toks) ->
  filter (fun t => tt_eqb (t_type t) Terminator) toks
    = flat_map terminator (source_lines es) /\
  forall l, In l (source_lines es) ->
    (terminator l <> nil <->
     (exists b, ending l = ByNewline b) /\ ~ is_blank_line l /\
     is_comment_line (content (body l)) = false /\ continuing (body l) = false).
Proof.
  intros V L H. split; [exact (ok_terminators U gs es Sn V L toks H)|].
  intros l _. unfold terminator, is_blank_line. destruct (ending l) as [b| |].
  - destruct (content (body l)) as [|p c].
    + split; [congruence|]. intros (_ & X & _). congruence.
    + destruct (continuing (body l)), (is_comment_line (p :: c)); cbn;
        (split; [intros X; try congruence|]).
      * intros (_ & _ & _ & X). congruence.
      * intros (_ & _ & _ & X). congruence.
      * intros (_ & _ & X & _). congruence.
      * split; [eauto|]. repeat split. congruence.
      * intros _. congruence.
  - split; [congruence|]. intros ((b & X) & _). discriminate.
  - split; [congruence|]. intros ((b & X) & _). discriminate.
Qed.

Lemma block_layout gs es toks : valid_source gs -> lexes U gs es ->
  scan_tokens U gs = Done (Ok toks) ->
  toks = tokens_of nil (source_lines es)
         ++ closing (length (open_levels (source_lines es))) gs.
Proof.
  intros V L H. exact (proj1 (scan_ok U gs es Sn V L toks H)).
Qed.

Lemma fails_exactly gs es r : valid_source gs -> lexes U gs es ->
  scan_tokens U gs = Done r ->
  ((exists errs, r = Err errs) <->
   (exists e, In e es /\ is_illegal e = true) \/ some_line below_levels es) /\
  (forall errs, r = Err errs -> errs = errors_of nil (source_lines es) /\ errs <> nil).
Proof.
  intros V L H. rewrite <- errors_exist.
  destruct (scan_cases U gs es Sn V L) as [[B E]|[B E]]; rewrite E in H; [discriminate|].
  injection H as <-. destruct (errors_of nil (source_lines es)) as [|c cs].
  - split; [|discriminate]. split; [intros (? & ?); discriminate|congruence].
  - split.
    + split; [congruence|]. eauto.
    + intros errs X. injection X as <-. split; congruence.
Qed.

Lemma error_positions gs es errs c : valid_source gs -> lexes U gs es ->
  scan_tokens U gs = Done (Err errs) -> In c errs ->
  c_token c = None /\
  ((exists a e b, es = a ++ e :: b /\
      match e with
      | StrayBackslash _ => c_loc c = position (text_of a)
      | StrayTab | Stray _ => c_loc c = next_column (position (text_of a))
      | OpenString _ => b = nil /\ c_loc c =
          mkLoc (loc_line (position gs)) (N.min 65534 (loc_column (position gs)))
      | _ => False
      end) \/
   (exists pre l post a e b r,
      source_lines es = pre ++ l :: post /\ below_levels pre l /\
      content (body l) = (text_of a, e) :: r /\ es = a ++ e :: b /\
      c_loc c = next_column (position (text_of a)))).
Proof.
  intros V L H I. destruct (fails_exactly gs es _ V L H) as [_ X].
  destruct (X errs eq_refl) as [-> _]. apply error_origin in I.
  destruct I as [(a & e & b & E & I)|(pre & l & post & before & e & r & S & B & C & (a & b & E & ->) & ->)].
  - destruct e; cbn in I; try contradiction; destruct I as [<-|[]]; (split; [reflexivity|]);
      left; eexists a, _, b; (split; [exact E|]); cbn; auto.
    subst es. destruct (lexes_app_inv U a gs _ L) as (gs' & -> & L').
    inversion L' as [|? rest ? L1 L2]; subst. inversion L1; subst.
    cbn [elem_text]. rewrite app_nil_r. split; [|reflexivity].
    inversion L2; [reflexivity|]. exfalso.
    match goal with L : lexeme U ?e ?r, E : elem_text ?e ++ ?r = nil |- _ =>
      apply lexeme_text_nonempty in L; destruct (elem_text e); [congruence|discriminate] end.
  - split; [reflexivity|]. right. exists pre, l, post, a, e, b, r. auto.
Qed.

Lemma crlf_rejected gs es toks :
  u_alphabetic U 13 = false -> u_alphanumeric U 13 = false ->
  valid_source gs -> lexes U gs es -> scan_tokens U gs = Done (Ok toks) ->
  forall e, In e es -> In s_crlf (elem_text e) ->
  (exists t, e = Comment t) \/ (exists t s, e = Tok TString t s None).
Proof.
  intros A1 A2 V L H e I J. pose proof (ok_legal gs es toks V L H e I) as K.
  apply in_split in I. destruct I as (a & c & ->).
  destruct (lexes_app_inv U a gs _ L) as (gs' & -> & L').
  inversion L' as [|? rest ? L1 L2]; subst.
  destruct (crlf_inside U e rest A1 A2 L1 J) as [X|[X|X]]; auto. congruence.
Qed.

Lemma continuation gs es toks pre l bl l' post : valid_source gs -> lexes U gs es ->
  scan_tokens U gs = Done (Ok toks) ->
  source_lines es = pre ++ l :: bl ++ l' :: post ->
  continued l -> Forall is_blank_line bl -> ~ is_blank_line l' ->
  terminator l = nil /\
  exists A outs B,
    toks = A ++ elems_tokens (before_next pre) (body l) ++ outs
             ++ elems_tokens (before_next (pre ++ l :: bl)) (body l') ++ B /\
    Forall (fun t => t_type t = Outdent) outs /\
    ((hd 0%N (open_levels (pre ++ l :: bl)) <= indentation (body l'))%N -> outs = nil).
Proof.
  intros V L H E C F NB. split.
  { unfold terminator. unfold continued in C. destruct (ending l); auto.
    rewrite C. destruct (content (body l)); reflexivity. }
  rewrite (block_layout gs es toks V L H), E.
  destruct (continued_adjacent pre l bl l' post _ eq_refl C F NB) as (A & outs & B & -> & O & Z).
  eexists A, outs, _. split; [rewrite <- !app_assoc; reflexivity|]. auto.
Qed.

End Final.

(** ** Refutations *)
Lemma lexing_unique U gs :
  exists es, lexes U gs es /\ forall es', lexes U gs es' -> es' = es.
Proof.
  destruct (lexes_total U gs) as [es L]. exists es. split; [exact L|].
  exact (lexes_unique U gs es L).
Qed.

Notation "a +++ b" := (String.append a b) (at level 60, right associativity).

Lemma always_returns_refuted :
  ~ (forall U gs, sane U -> valid_source gs -> exists r, scan_tokens U gs = Done r).
Proof.
  intros H.
  destruct (H sample_unicode
    (segment ("if a" +++ s_nl +++ "  b" +++ s_nl +++ "      c" +++ s_nl +++ "    d" +++ s_nl)))
    as [r E].
  - apply sample_sane.
  - apply check_valid. vm_compute. reflexivity.
  - vm_compute in E. discriminate.
Qed.

Lemma comment_lines_refuted :
  ~ (forall U x es y n txt,
       sane U -> valid_source (x ++ y) -> valid_source txt ->
       Forall (fun g => g <> s_nl) txt -> lexes U x es -> whole_lines es ->
       same_result (scan_tokens U (x ++ y))
         (scan_tokens U (x ++ (repeat " " n ++ "/" :: "/" :: txt ++ [s_nl]) ++ y))).
Proof.
  intros H.
  specialize (H sample_unicode (segment ("a" +++ s_nl)) (elements ("a" +++ s_nl))
                (segment "b") 2 nil).
  assert (V : valid_source (segment ("a" +++ s_nl) ++ segment "b"))
    by (apply check_valid; vm_compute; reflexivity).
  assert (W : whole_lines (elements ("a" +++ s_nl))).
  { right. exists [Tok Identifier ["a"] None None]. vm_compute. reflexivity. }
  specialize (H sample_sane V (Forall_nil _) (Forall_nil _) (elements_lex _) W).
  vm_compute in H. discriminate H.
Qed.

Lemma error_positions_refuted :
  ~ (forall U gs es errs c,
       sane U -> valid_source gs -> lexes U gs es ->
       scan_tokens U gs = Done (Err errs) -> In c errs ->
       exists a e b, es = a ++ e :: b /\ c_loc c = position (text_of a) /\
                     is_illegal e = true).
Proof.
  intros H.
  assert (E : scan_tokens sample_unicode (segment "#") =
    Done (Err [cause_new (mkLoc 1 2) "Unexpected token: #"])) by (vm_compute; reflexivity).
  assert (V : valid_source (segment "#")) by (apply check_valid; vm_compute; reflexivity).
  destruct (H sample_unicode _ _ _ _ sample_sane V (elements_lex "#") E (or_introl eq_refl))
    as (a & e & b & Es & P & K).
  assert (X : elements "#" = [Stray "#"]) by (vm_compute; reflexivity).
  rewrite X in Es. destruct a as [|? [|]]; try discriminate.
Qed.

Lemma crlf_refuted :
  ~ (forall U x y, sane U -> valid_source (x ++ s_crlf :: y) ->
       same_result (scan_tokens U (x ++ s_crlf :: y)) (scan_tokens U (x ++ s_nl :: y))).
Proof.
  intros H. specialize (H sample_unicode ["a"] nil sample_sane).
  assert (V : valid_source (["a"] ++ [s_crlf])) by (apply check_valid; vm_compute; reflexivity).
  specialize (H V). vm_compute in H. exact H.
Qed.

Lemma continuation_refuted :
  ~ (forall U gs es toks pre l post p q,
       sane U -> valid_source gs -> lexes U gs es -> scan_tokens U gs = Done (Ok toks) ->
       source_lines es = pre ++ l :: post -> body l = p ++ q ->
       continuing p = true -> Forall (fun x => snd x = Space) q -> terminator l = nil).
Proof.
  intros H. pose (s := "a + " +++ s_nl +++ "b").
  assert (V : valid_source (segment s)) by (apply check_valid; vm_compute; reflexivity).
  pose (l := hd (mkLine nil ByEof) (source_lines (elements s))).
  assert (E : exists toks, scan_tokens sample_unicode (segment s) = Done (Ok toks))
    by (eexists; vm_compute; reflexivity).
  destruct E as [toks E].
  assert (X : terminator l = nil).
  { apply (H sample_unicode _ _ toks nil l (tl (source_lines (elements s)))
             (firstn 3 (body l)) (skipn 3 (body l)) sample_sane V (elements_lex s) E).
    - vm_compute. reflexivity.
    - symmetry. apply firstn_skipn.
    - vm_compute. reflexivity.
    - vm_compute. repeat constructor. }
  vm_compute in X. discriminate.
Qed.
