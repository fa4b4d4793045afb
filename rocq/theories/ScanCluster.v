(** [scan_token] on each kind of lexical element. *)
From Verif Require Import Base F64 Token Scanner SpecLex SpecLayout StrFacts ScanLex ScanStep.

Section Cluster.
Variable U : unicode.

(** The state in which [scan_cluster] is entered: one cluster read. *)
Record entered (b : list string) (g : string) (rest : list string)
       (s : scanner) (m : mst) : Prop := mkEntered {
  e_core : core (b ++ [g]) rest s;
  e_started : started b s;
  e_line : sc_line s = loc_line (position b);
  e_col : sc_column s = loc_column (next_column (position b));
  e_fields : fields s m
}.

Lemma scan_token_enter b g r s m :
  core b (g :: r) s -> posn b s -> fields s m ->
  exists s1, entered b g r s1 m /\
    scan_token U (set_start (peek_index s) s) =
    (olet x <- scan_cluster U g s1 ;;
     let '(s2, w, f) := x in
     Done (set_abutting (negb w) (set_follow_cont f s2))).
Proof.
  intros C P F.
  set (s0 := set_start_column (sc_column s) (set_start (peek_index s) s)).
  assert (C0 : core b (g :: r) s0) by exact C.
  exists (adv s0).
  destruct (adv_core b g r s0 C0) as (C1 & K & Cu & L & Co).
  split.
  - constructor.
    + exact C1.
    + split.
      * rewrite (k_start _ _ K). cbn. now apply (peek_index_core b (g :: r)).
      * rewrite (k_scol _ _ K). cbn. apply P.
    + rewrite L. apply P.
    + rewrite Co. cbn. destruct P as [_ ->]. reflexivity.
    + eapply same_fields; [exact K|]. destruct F. constructor; assumption.
  - unfold scan_token.
    assert (E : advance s0 = (adv s0, Some (slen (sconcat b), g))).
    { unfold adv, advance. cbn [sc_gi set_column].
      destruct C0 as (_ & -> & _). reflexivity. }
    fold s0.
    change (set_start_column (sc_column (set_start (peek_index s) s))
              (set_start (peek_index s) s)) with s0.
    rewrite E. reflexivity.
Qed.

(** ** What must hold after [scan_cluster] *)
Definition after (b : list string) (e : elem) (rest : list string) (m' : mst)
           (x : scanner * bool * bool) : Prop :=
  let '(s2, w, f) := x in
  let s3 := set_abutting (negb w) (set_follow_cont f s2) in
  fields s3 m' /\
  match e with
  | OpenString _ =>
    sc_gi s3 = nil /\ sc_eof s3 = true /\
    sc_source s3 = sconcat (b ++ elem_text e) /\ sc_start s3 = slen (sconcat b)
  | _ => core (b ++ elem_text e) rest s3 /\ posn (b ++ elem_text e) s3
  end.
Definition agrees (b : list string) (e : elem) (rest : list string)
           (om : option mst) (o : outcome (scanner * bool * bool)) : Prop :=
  match om with
  | None => o = Diverged
  | Some m' => exists x, o = Done x /\ after b e rest m' x
  end.

Lemma entered_posn b g r s m :
  entered b g r s m -> String.eqb g s_nl = false -> posn (b ++ [g]) s.
Proof.
  intros [_ _ L C _] N. unfold posn.
  rewrite next_column_step by assumption. split; [exact L|exact C].
Qed.

Lemma first_cluster_cons e g t : elem_text e = g :: t -> first_cluster e = g.
Proof. unfold first_cluster. now intros ->. Qed.

(** Opening a line, then going on. *)
Lemma bol_entered b g t rest s m e :
  entered b g (t ++ rest) s m -> elem_text e = g :: t ->
  valid_source (elem_text e ++ rest) ->
  match mopen m (b, e) with
  | None => bol_indentation_tokens s = Diverged
  | Some m1 => exists s1, bol_indentation_tokens s = Done s1 /\
                          entered b g (t ++ rest) s1 m1
  end.
Proof.
  intros [C S L Co F] Te V. rewrite Te in V.
  pose proof (bol_spec b g [g] (t ++ rest) s m e V eq_refl
                (first_cluster_cons e g t Te) C S L Co F) as H.
  destruct (mopen m (b, e)); [|assumption].
  destruct H as (s1 & E & F1 & C1 & S1 & L1 & Co1).
  exists s1. split; [assumption|]. constructor; congruence || assumption.
Qed.

(** Adding the token of an element read in full. *)
Lemma push_after b e k k' text rest s m follow :
  e = Tok k text None None ->
  core (b ++ text) rest s -> posn (b ++ text) s -> started b s ->
  sc_line s = loc_line (position b) ->
  fields s m -> valid_source (text ++ rest) ->
  exists s2, add_token k' s = Done s2 /\
    after b e rest (mset follow true
      (mtok [mk_at k' (sconcat text) None None (position b)] m))
      (s2, false, follow).
Proof.
  intros -> C P S L F V.
  rewrite (add_token_core k' b text rest) by (assumption || apply S).
  eexists. split; [reflexivity|]. cbn. split.
  - destruct F. destruct S as [_ Sc].
    constructor; cbn; auto. unfold mk_at. congruence.
  - split; [exact C|]. exact P.
Qed.

Lemma scan_punct_agrees b g k follow rest s m :
  entered b g rest s m -> valid_source (g :: rest) ->
  String.eqb g s_nl = false -> k <> LeftParen -> continuing_kind k = follow ->
  agrees b (Tok k [g] None None) rest (mstep m (b, Tok k [g] None None))
         (scan_punct k follow s).
Proof.
  intros E V NL NK CK. unfold mstep, scan_punct. cbn [snd fst].
  pose proof (bol_entered b g nil rest s m (Tok k [g] None None) E eq_refl V) as B.
  destruct (mopen m (b, Tok k [g] None None)) as [m1|].
  2:{ rewrite B. reflexivity. }
  destruct B as (s1 & B & E1). rewrite B. cbn [obind].
  cbn [app] in E1. pose proof (entered_posn _ _ _ _ _ E1 NL) as P1.
  destruct E1 as [C1 S1 L1 Co1 F1].
  destruct (push_after b (Tok k [g] None None) k k [g] rest s1 m1 follow eq_refl
              C1 P1 S1 L1 F1 V) as (s2 & A & H).
  rewrite A. cbn [obind agrees].
  eexists. split; [reflexivity|].
  rewrite CK. replace (match k with LeftParen => if m_abut m then LeftParenAbutting
    else LeftParen | _ => k end) with k by (destruct k; congruence).
  exact H.
Qed.

Lemma mopen_abut m p m1 : mopen m p = Some m1 -> m_abut m1 = m_abut m.
Proof.
  unfold mopen. destruct (m_bol m); cbn [negb]; [|congruence].
  destruct p as [b e].
  destruct (m_width m ?= hd 0%N (m_stack m))%N.
  - now intros [= <-].
  - destruct (pop_levels _ _) as [[[c st] f]|]; [|discriminate]. now intros [= <-].
  - destruct (m_cont m); now intros [= <-].
Qed.

Lemma scan_paren_agrees b rest s m :
  entered b "(" rest s m -> valid_source ("(" :: rest) ->
  agrees b (Tok LeftParen ["("] None None) rest
         (mstep m (b, Tok LeftParen ["("] None None)) (scan_cluster U "(" s).
Proof.
  intros E V. unfold mstep. cbn [snd fst].
  change (scan_cluster U "(" s) with
    (olet s1 <- bol_indentation_tokens s ;;
     olet s2 <- add_token (if sc_abutting s1 then LeftParenAbutting
                           else LeftParen) s1 ;;
     Done (s2, false, true)).
  pose proof (bol_entered b "(" nil rest s m (Tok LeftParen ["("] None None)
                E eq_refl V) as B.
  destruct (mopen m (b, Tok LeftParen ["("] None None)) as [m1|] eqn:Mo.
  2:{ rewrite B. reflexivity. }
  destruct B as (s1 & B & E1). rewrite B. cbn [obind].
  cbn [app] in E1. pose proof (entered_posn _ _ _ _ _ E1 eq_refl) as P1.
  destruct E1 as [C1 S1 L1 Co1 F1].
  rewrite (f_abut _ _ F1), (mopen_abut _ _ _ Mo).
  destruct (push_after b (Tok LeftParen ["("] None None) LeftParen
              (if m_abut m then LeftParenAbutting else LeftParen)
              ["("] rest s1 m1 true eq_refl C1 P1 S1 L1 F1 V) as (s2 & A & H).
  rewrite A. cbn [obind agrees]. eexists. split; [reflexivity|]. exact H.
Qed.

(** [matches] on the next cluster *)
Lemma matches_yes b g r s x :
  core b (x :: r) s -> posn b s -> x = g -> String.eqb g s_nl = false ->
  matches g s = (adv s, true) /\ core (b ++ [g]) r (adv s) /\
  posn (b ++ [g]) (adv s) /\ same s (adv s).
Proof.
  intros C P -> N. destruct (adv_step b g r s C P N) as (C' & P' & K & _).
  destruct C as (_ & G & E).
  split; [|auto].
  unfold matches, is_at_end, peek_grapheme. rewrite E, G. cbn.
  now rewrite String.eqb_refl.
Qed.
Lemma matches_no b g rest s :
  core b rest s -> next_not (eq g) rest -> matches g s = (s, false).
Proof.
  intros (_ & G & E) N. unfold matches, is_at_end, peek_grapheme.
  rewrite E, G. destruct rest as [|h r]; cbn; [reflexivity|].
  cbn in N. destruct (String.eqb_spec h g); [congruence|reflexivity].
Qed.
Lemma matches_no_any b g rest s :
  core b rest s -> sc_eof s = false -> next_not (eq g) rest ->
  matches g s = (s, false).
Proof. intros. eapply matches_no; eassumption. Qed.

Lemma scan_op_agrees b g k1 k2 follow rest s m :
  entered b g rest s m -> valid_source (g :: rest) ->
  String.eqb g s_nl = false -> k1 <> LeftParen ->
  continuing_kind k1 = follow -> next_not (eq "=") rest ->
  agrees b (Tok k1 [g] None None) rest (mstep m (b, Tok k1 [g] None None))
         (scan_punct_eq k2 k1 follow s).
Proof.
  intros E V NL NK CK X. unfold mstep, scan_punct_eq. cbn [snd fst].
  pose proof (bol_entered b g nil rest s m (Tok k1 [g] None None) E eq_refl V) as B.
  destruct (mopen m (b, Tok k1 [g] None None)) as [m1|].
  2:{ rewrite B. reflexivity. }
  destruct B as (s1 & B & E1). rewrite B. cbn [obind].
  cbn [app] in E1. pose proof (entered_posn _ _ _ _ _ E1 NL) as P1.
  destruct E1 as [C1 S1 L1 Co1 F1].
  rewrite (matches_no _ _ _ _ C1 X).
  destruct (push_after b (Tok k1 [g] None None) k1 k1 [g] rest s1 m1 follow eq_refl
              C1 P1 S1 L1 F1 V) as (s2 & A & H).
  rewrite A. cbn [obind agrees].
  eexists. split; [reflexivity|].
  rewrite CK. replace (match k1 with LeftParen => if m_abut m then LeftParenAbutting
    else LeftParen | _ => k1 end) with k1 by (destruct k1; congruence).
  exact H.
Qed.

Lemma scan_op_eq_agrees b g k1 k2 follow rest s m :
  entered b g ("=" :: rest) s m -> valid_source (g :: "=" :: rest) ->
  String.eqb g s_nl = false -> k2 <> LeftParen ->
  continuing_kind k2 = follow ->
  agrees b (Tok k2 [g; "="] None None) rest
         (mstep m (b, Tok k2 [g; "="] None None))
         (scan_punct_eq k2 k1 follow s).
Proof.
  intros E V NL NK CK. unfold mstep, scan_punct_eq. cbn [snd fst].
  pose proof (bol_entered b g ["="] rest s m (Tok k2 [g; "="] None None)
                E eq_refl V) as B.
  destruct (mopen m (b, Tok k2 [g; "="] None None)) as [m1|].
  2:{ rewrite B. reflexivity. }
  destruct B as (s1 & B & E1). rewrite B. cbn [obind].
  cbn [app] in E1. pose proof (entered_posn _ _ _ _ _ E1 NL) as P1.
  destruct E1 as [C1 S1 L1 Co1 F1].
  destruct (matches_yes (b ++ [g]) "=" rest s1 "=" C1 P1 eq_refl eq_refl)
    as (M & C2 & P2 & K).
  rewrite M. rewrite <- app_assoc in C2, P2. cbn [app] in C2, P2.
  assert (S2 : started b (adv s1)).
  { destruct S1 as [A1 A2]. destruct K. split; congruence. }
  assert (L2 : sc_line (adv s1) = loc_line (position b)).
  { rewrite <- L1. now apply (adv_core _ _ _ _ C1). }
  destruct (push_after b (Tok k2 [g; "="] None None) k2 k2 [g; "="] rest (adv s1)
              m1 follow eq_refl C2 P2 S2 L2 (same_fields _ _ _ K F1) V)
    as (s2 & A & H).
  rewrite A. cbn [obind agrees].
  eexists. split; [reflexivity|].
  rewrite CK. replace (match k2 with LeftParen => if m_abut m then LeftParenAbutting
    else LeftParen | _ => k2 end) with k2 by (destruct k2; congruence).
  exact H.
Qed.

(** Texts without newline stay on the line. *)
Definition no_nl (l : list string) : Prop :=
  Forall (fun g => String.eqb g s_nl = false) l.
Lemma position_line b t :
  no_nl t -> loc_line (position (b ++ t)) = loc_line (position b).
Proof.
  revert b. induction t as [|g t IH]; intros b F.
  - now rewrite app_nil_r.
  - inversion F as [|? ? N F']; subst.
    change (g :: t) with ([g] ++ t). rewrite app_assoc, IH by assumption.
    rewrite position_step by assumption. reflexivity.
Qed.

(** Slash and comments. *)
Lemma scan_slash_agrees b rest s m :
  entered b "/" rest s m -> valid_source ("/" :: rest) ->
  next_not (eq "/") rest ->
  agrees b (Tok Slash ["/"] None None) rest
         (mstep m (b, Tok Slash ["/"] None None)) (scan_cluster U "/" s).
Proof.
  intros E V X. unfold mstep. cbn [snd fst].
  change (scan_cluster U "/" s) with
    (let was_bol := sc_is_bol s in
     olet s1 <- bol_indentation_tokens s ;;
     let '(s2, m) := matches "/" s1 in
     if m then Done (set_only_comment was_bol (advance_to_eol s2), false, false)
     else olet s3 <- add_token Slash s2 ;; Done (s3, false, true)).
  cbv zeta.
  pose proof (bol_entered b "/" nil rest s m (Tok Slash ["/"] None None)
                E eq_refl V) as B.
  destruct (mopen m (b, Tok Slash ["/"] None None)) as [m1|].
  2:{ rewrite B. reflexivity. }
  destruct B as (s1 & B & E1). rewrite B. cbn [obind].
  cbn [app] in E1. pose proof (entered_posn _ _ _ _ _ E1 eq_refl) as P1.
  destruct E1 as [C1 S1 L1 Co1 F1].
  rewrite (matches_no _ _ _ _ C1 X).
  destruct (push_after b (Tok Slash ["/"] None None) Slash Slash ["/"] rest s1 m1
              true eq_refl C1 P1 S1 L1 F1 V) as (s2 & A & H).
  rewrite A. cbn [obind agrees]. eexists. split; [reflexivity|exact H].
Qed.

Lemma scan_comment_agrees b body rest s m :
  entered b "/" ("/" :: body ++ rest) s m ->
  valid_source ("/" :: "/" :: body ++ rest) ->
  Forall (fun g => g <> s_nl) body -> next_not (fun g => g <> s_nl) rest ->
  agrees b (Comment ("/" :: "/" :: body)) rest
         (mstep m (b, Comment ("/" :: "/" :: body))) (scan_cluster U "/" s).
Proof.
  intros E V FB X. unfold mstep. cbn [snd fst].
  change (scan_cluster U "/" s) with
    (let was_bol := sc_is_bol s in
     olet s1 <- bol_indentation_tokens s ;;
     let '(s2, m) := matches "/" s1 in
     if m then Done (set_only_comment was_bol (advance_to_eol s2), false, false)
     else olet s3 <- add_token Slash s2 ;; Done (s3, false, true)).
  cbv zeta.
  pose proof (bol_entered b "/" ("/" :: body) rest s m
                (Comment ("/" :: "/" :: body)) E eq_refl V) as B.
  destruct (mopen m (b, Comment ("/" :: "/" :: body))) as [m1|].
  2:{ rewrite B. reflexivity. }
  destruct B as (s1 & B & E1). rewrite B. cbn [obind].
  pose proof (entered_posn _ _ _ _ _ E1 eq_refl) as P1.
  rewrite (f_bol _ _ (e_fields _ _ _ _ _ E)).
  destruct E1 as [C1 S1 L1 Co1 F1].
  destruct (matches_yes _ "/" _ s1 "/" C1 P1 eq_refl eq_refl)
    as (M & C2 & P2 & K).
  rewrite M. cbn [agrees]. eexists. split; [reflexivity|].
  assert (NB : no_nl body).
  { eapply Forall_impl; [|exact FB]. intros g H. now apply String.eqb_neq. }
  destruct (advance_while_core (fun g => negb (String.eqb g s_nl)) body
              ((b ++ ["/"]) ++ ["/"]) rest (adv s1) C2 P2) as (C3 & P3 & K3).
  - eapply Forall_impl; [|exact NB]. cbn. intros g ->. reflexivity.
  - destruct rest as [|x r]; [exact I|]. cbn in X.
    destruct (String.eqb_spec x s_nl); [reflexivity|tauto].
  - exact NB.
  - rewrite <- !app_assoc in C3, P3. cbn [app] in C3, P3.
    unfold after. cbn zeta. split.
    + pose proof (same_fields _ _ _ (same_trans _ _ _ K K3) F1) as F3.
      destruct F3. constructor; cbn; auto.
    + split; [exact C3|exact P3].
Qed.

(** Backslashes. *)
Lemma match_spaces_core n : forall b rest s,
  core b (repeat " " n ++ rest) s -> posn b s -> next_not (eq " ") rest ->
  let s' := match_spaces (sc_gi s) s in
  core (b ++ repeat " " n) rest s' /\ posn (b ++ repeat " " n) s' /\ same s s'.
Proof.
  induction n as [|n IH]; intros b rest s C P X; cbn [repeat] in *; cbn zeta.
  - rewrite app_nil_r.
    assert (E : match_spaces (sc_gi s) s = s).
    { pose proof (matches_no _ _ _ _ C X) as M.
      destruct (sc_gi s); cbn [match_spaces]; [reflexivity|]. now rewrite M. }
    rewrite E. split; [exact C|]. split; [exact P|apply same_refl].
  - destruct (matches_yes b " " (repeat " " n ++ rest) s " " C P eq_refl eq_refl)
      as (M & C2 & P2 & K).
    assert (E : match_spaces (sc_gi s) s = match_spaces (sc_gi (adv s)) (adv s)).
    { destruct C as (_ & G & _). destruct C2 as (_ & G2 & _).
      rewrite G. cbn [app grapheme_indices match_spaces]. rewrite M, G2.
      rewrite slen_snoc. reflexivity. }
    rewrite E. destruct (IH _ _ _ C2 P2 X) as (A & B & D).
    rewrite <- app_assoc in A, B. cbn [app] in A, B.
    split; [exact A|]. split; [exact B|]. eapply same_trans; eassumption.
Qed.

Lemma no_nl_spaces n : no_nl (repeat " " n).
Proof. apply Forall_forall. intros x H. apply repeat_spec in H. now subst. Qed.

Lemma scan_backslash_unfold s :
  scan_cluster U s_backslash s =
    (let s1 := match_spaces (sc_gi s) s in
    let s2 := fst (matches s_cr s1) in
    let '(s3, m) := matches s_nl s2 in
    if m then Done (set_is_cont true (reset_line s3), false, false)
    else Done (error (cause_new (mkLoc (sc_line s3) (sc_start_column s3))
                        ("Unexpected character: '" ++ s_backslash ++ "'")) s3,
               false, false)).
Proof. reflexivity. Qed.

Lemma reset_fields s m : fields s m -> fields (reset_line s) (mreset m).
Proof.
  intros []. unfold reset_line, mreset. cbn. rewrite f_bol.
  destruct (m_bol m); constructor; cbn; auto.
Qed.
Lemma reset_core b rest s : core b rest s -> core b rest (reset_line s).
Proof. unfold reset_line. destruct (sc_is_bol s); cbn; intros H; exact H. Qed.

Lemma scan_continuation_agrees b n cr rest s m :
  entered b s_backslash (repeat " " n ++ cr ++ [s_nl] ++ rest) s m ->
  cr = nil \/ cr = [s_cr] ->
  let e := Continuation (s_backslash :: repeat " " n ++ cr ++ [s_nl]) in
  agrees b e rest (mstep m (b, e)) (scan_cluster U s_backslash s).
Proof.
  intros E Cr e. rewrite scan_backslash_unfold. cbv zeta.
  pose proof (entered_posn _ _ _ _ _ E eq_refl) as P1.
  destruct E as [C1 S1 L1 Co1 F1].
  destruct (match_spaces_core n _ _ _ C1 P1) as (C2 & P2 & K2).
  { destruct Cr as [->| ->]; cbn; discriminate. }
  set (s2 := match_spaces (sc_gi s) s) in *.
  assert (exists s3, fst (matches s_cr s2) = s3 /\
            core (((b ++ [s_backslash]) ++ repeat " " n) ++ cr) ([s_nl] ++ rest) s3 /\
            posn (((b ++ [s_backslash]) ++ repeat " " n) ++ cr) s3 /\ same s2 s3)
    as (s3 & -> & C3 & P3 & K3).
  { destruct Cr as [->| ->].
    - rewrite (matches_no _ s_cr _ _ C2) by (cbn; discriminate).
      exists s2. rewrite app_nil_r. repeat split; try apply C2; try apply P2.
    - destruct (matches_yes _ s_cr _ _ s_cr C2 P2 eq_refl eq_refl)
        as (-> & A & B & D).
      exists (adv s2). auto. }
  assert (M : matches s_nl s3 = (adv s3, true)).
  { unfold matches, is_at_end, peek_grapheme. destruct C3 as (_ & -> & ->).
    cbn. reflexivity. }
  rewrite M. cbn [agrees mstep snd]. eexists. split; [reflexivity|].
  destruct (adv_core _ _ _ _ C3) as (C4 & K4 & _ & L4 & _).
  pose proof (reset_fields _ _ (same_fields _ _ _
    (same_trans _ _ _ K2 (same_trans _ _ _ K3 K4)) F1)) as F4.
  replace (b ++ elem_text e)
    with ((((b ++ [s_backslash]) ++ repeat " " n) ++ cr) ++ [s_nl])
    by (cbn; rewrite <- !app_assoc; reflexivity).
  unfold after. cbn zeta. split.
  - destruct F4. constructor; cbn; auto.
  - unfold e. cbn [elem_text].
    replace (b ++ s_backslash :: repeat " " n ++ cr ++ [s_nl])
      with ((((b ++ [s_backslash]) ++ repeat " " n) ++ cr) ++ [s_nl])
      by (cbn; rewrite <- !app_assoc; reflexivity).
    split.
    + apply (reset_core _ _ _ C4).
    + unfold posn. rewrite position_nl. destruct P3 as [P3 _].
      unfold reset_line. destruct (sc_is_bol (adv s3)); cbn;
        rewrite L4, P3; split; reflexivity.
Qed.

Lemma scan_stray_backslash_agrees b n cr rest s m :
  entered b s_backslash (repeat " " n ++ cr ++ rest) s m ->
  cr = nil /\ next_not (fun g => g = " " \/ g = s_cr \/ g = s_nl) rest \/
  cr = [s_cr] /\ next_not (eq s_nl) rest ->
  let e := StrayBackslash (s_backslash :: repeat " " n ++ cr) in
  agrees b e rest (mstep m (b, e)) (scan_cluster U s_backslash s).
Proof.
  intros E Cr e. rewrite scan_backslash_unfold. cbv zeta.
  pose proof (entered_posn _ _ _ _ _ E eq_refl) as P1.
  destruct E as [C1 S1 L1 Co1 F1].
  destruct (match_spaces_core n _ _ _ C1 P1) as (C2 & P2 & K2).
  { destruct Cr as [[-> X]|[-> X]]; cbn; [|discriminate].
    destruct rest; cbn in *; [exact I|]. intuition congruence. }
  set (s2 := match_spaces (sc_gi s) s) in *.
  assert (exists s3, fst (matches s_cr s2) = s3 /\
            core (((b ++ [s_backslash]) ++ repeat " " n) ++ cr) rest s3 /\
            posn (((b ++ [s_backslash]) ++ repeat " " n) ++ cr) s3 /\ same s2 s3)
    as (s3 & -> & C3 & P3 & K3).
  { destruct Cr as [[-> X]|[-> X]].
    - rewrite (matches_no _ s_cr _ _ C2)
        by (destruct rest; cbn in *; [exact I|]; intuition congruence).
      exists s2. rewrite app_nil_r. repeat split; try apply C2; try apply P2.
    - destruct (matches_yes _ s_cr _ _ s_cr C2 P2 eq_refl eq_refl)
        as (-> & A & B & D).
      exists (adv s2). auto. }
  rewrite (matches_no _ s_nl _ _ C3).
  2:{ destruct Cr as [[-> X]|[-> X]]; [|exact X].
      destruct rest; cbn in *; [exact I|]. intuition congruence. }
  cbn [agrees mstep snd]. eexists. split; [reflexivity|].
  pose proof (same_trans _ _ _ K2 K3) as K.
  pose proof (same_fields _ _ _ K F1) as F4.
  assert (NN : no_nl (s_backslash :: repeat " " n ++ cr)).
  { constructor; [reflexivity|]. apply Forall_app. split; [apply no_nl_spaces|].
    destruct Cr as [[-> _]|[-> _]]; repeat constructor. }
  rewrite <- !app_assoc in C3, P3. cbn [app] in C3, P3.
  unfold after. cbn zeta. split.
  - destruct F4. constructor; cbn; auto.
    rewrite f_errs, (k_scol _ _ K). destruct S1 as [_ ->].
    destruct P3 as [-> _]. rewrite position_line by assumption. reflexivity.
  - split; [exact C3|exact P3].
Qed.

(** Blanks. *)
Lemma scan_tab_agrees b rest s m :
  entered b s_tab rest s m ->
  agrees b StrayTab rest (mstep m (b, StrayTab)) (scan_cluster U s_tab s).
Proof.
  intros E. pose proof (entered_posn _ _ _ _ _ E eq_refl) as P1.
  destruct E as [C1 S1 L1 Co1 F1].
  cbn. eexists. split; [reflexivity|]. unfold after. cbn zeta. split.
  - destruct F1. constructor; cbn; auto. rewrite f_errs, L1, Co1. reflexivity.
  - split; [exact C1|exact P1].
Qed.
Lemma scan_space_agrees b rest s m :
  entered b " " rest s m ->
  agrees b Space rest (mstep m (b, Space)) (scan_cluster U " " s).
Proof.
  intros E. pose proof (entered_posn _ _ _ _ _ E eq_refl) as P1.
  destruct E as [C1 S1 L1 Co1 F1].
  cbn. eexists. split; [reflexivity|]. unfold after. cbn zeta. split.
  - destruct F1. rewrite f_bol.
    destruct (m_bol m) eqn:Eb; constructor; cbn; rewrite ?Eb; auto. congruence.
  - destruct (sc_is_bol s); (split; [exact C1|exact P1]).
Qed.
Lemma scan_cr_agrees b rest s m :
  entered b s_cr rest s m ->
  agrees b Return_ rest (mstep m (b, Return_)) (scan_cluster U s_cr s).
Proof.
  intros E. pose proof (entered_posn _ _ _ _ _ E eq_refl) as P1.
  destruct E as [C1 S1 L1 Co1 F1].
  cbn. eexists. split; [reflexivity|]. unfold after. cbn zeta. split.
  - destruct F1. constructor; cbn; auto.
  - split; [exact C1|exact P1].
Qed.
Lemma scan_nl_agrees b rest s m :
  entered b s_nl rest s m -> valid_source (s_nl :: rest) ->
  agrees b Newline rest (mstep m (b, Newline)) (scan_cluster U s_nl s).
Proof.
  intros [C1 S1 L1 Co1 F1] V.
  change (scan_cluster U s_nl s) with
   (let continue_line := sc_follow_cont s in
    olet s1 <-
      (if negb (sc_is_bol s) && negb continue_line && negb (sc_only_comment s)
       then add_token Terminator s else Done s) ;;
    Done (reset_line s1, true, false)).
  cbv zeta. cbn [mstep snd fst agrees].
  rewrite (f_bol _ _ F1), (f_follow _ _ F1), (f_only _ _ F1).
  set (c := negb (m_bol m) && negb (m_follow m) && negb (m_only m)).
  assert (exists s1, (if c then add_token Terminator s else Done s) = Done s1 /\
    fields s1 (mtok (if c then [mk_at Terminator s_nl None None (position b)]
                     else nil) m) /\
    core (b ++ [s_nl]) rest s1 /\ sc_line s1 = sc_line s) as (s1 & -> & F & C & L).
  { destruct c.
    - rewrite (add_token_core Terminator b [s_nl] rest) by (assumption || apply S1).
      eexists. split; [reflexivity|]. split; [|split; [exact C1|reflexivity]].
      destruct F1. destruct S1 as [_ Sc]. constructor; cbn; auto.
      rewrite f_toks, L1, Sc. reflexivity.
    - eexists. split; [reflexivity|]. split; [|split; [exact C1|reflexivity]].
      destruct F1. constructor; cbn; auto. now rewrite app_nil_r. }
  cbn [obind]. eexists. split; [reflexivity|]. unfold after. cbn zeta. split.
  - apply reset_fields in F. destruct F. constructor; cbn; auto.
  - split.
    + apply (reset_core _ _ _ C).
    + unfold posn. cbn [elem_text]. rewrite position_nl.
      unfold reset_line. destruct (sc_is_bol s1); cbn;
        rewrite L, L1; split; reflexivity.
Qed.

(** Strings. *)
Lemma string_loop_body body : forall b rest s,
  core b (body ++ rest) s -> posn b s -> Forall (fun g => g <> s_quote) body ->
  exists s', string_loop (sc_gi s) s = string_loop (sc_gi s') s' /\
    core (b ++ body) rest s' /\ posn (b ++ body) s' /\ same s s'.
Proof.
  induction body as [|g body IH]; intros b rest s C P F.
  - exists s. rewrite app_nil_r. repeat split; try apply C; try apply P.
  - inversion F as [|? ? N F']; subst.
    set (s1 := if String.eqb g s_nl
               then set_column 0 (set_line (sat_succ32 (sc_line s)) s) else s).
    assert (C1 : core b (g :: body ++ rest) s1).
    { unfold s1. destruct (String.eqb g s_nl); exact C. }
    destruct (adv_core _ _ _ _ C1) as (C2 & K & _ & L & Co).
    assert (P2 : posn (b ++ [g]) (adv s1)).
    { unfold posn. rewrite L, Co. unfold s1. destruct P as [P Q].
      destruct (String.eqb_spec g s_nl) as [->|G].
      - rewrite position_nl. cbn. rewrite P. split; reflexivity.
      - rewrite position_step by now apply String.eqb_neq. cbn.
        rewrite P, Q. split; reflexivity. }
    assert (K2 : same s (adv s1)).
    { eapply same_trans; [|exact K]. unfold s1.
      destruct (String.eqb g s_nl); constructor; reflexivity. }
    destruct (IH _ _ _ C2 P2 F') as (s' & E & C3 & P3 & K3).
    exists s'. split.
    + rewrite <- E. destruct C as (_ & -> & _). destruct C2 as (_ & -> & _).
      cbn [app grapheme_indices string_loop].
      apply String.eqb_neq in N. rewrite N. fold s1. now rewrite slen_snoc.
    + rewrite <- app_assoc in C3, P3. cbn [app] in C3, P3.
      split; [exact C3|]. split; [exact P3|]. eapply same_trans; eassumption.
Qed.

Lemma scan_string_agrees b body rest s m :
  entered b s_quote (body ++ [s_quote] ++ rest) s m ->
  valid_source (s_quote :: body ++ [s_quote] ++ rest) ->
  Forall (fun g => g <> s_quote) body ->
  let e := Tok TString (s_quote :: body ++ [s_quote]) (Some (sconcat body)) None in
  agrees b e rest (mstep m (b, e)) (scan_cluster U s_quote s).
Proof.
  intros E V F e.
  change (scan_cluster U s_quote s) with
   (olet s1 <- bol_indentation_tokens s ;;
    olet s2 <- scan_string s1 ;;
    Done (s2, false, false)).
  unfold mstep. cbn [snd fst]. unfold e at 1. cbn [snd].
  assert (E' : entered b s_quote ((body ++ [s_quote]) ++ rest) s m)
    by (rewrite <- app_assoc; exact E).
  assert (V' : valid_source (elem_text e ++ rest)).
  { unfold e. cbn. rewrite <- app_assoc. exact V. }
  pose proof (bol_entered b s_quote (body ++ [s_quote]) rest s m e E' eq_refl V') as B.
  destruct (mopen m (b, e)) as [m1|].
  2:{ rewrite B. reflexivity. }
  destruct B as (s1 & B & E1). rewrite B. cbn [obind agrees].
  rewrite <- app_assoc in E1.
  pose proof (entered_posn _ _ _ _ _ E1 eq_refl) as P1.
  destruct E1 as [C1 S1 L1 Co1 F1].
  unfold scan_string.
  destruct (string_loop_body body _ _ _ C1 P1 F) as (s2 & EL & C2 & P2 & K2).
  assert (E2 : string_loop (sc_gi s2) s2 = s2).
  { destruct C2 as (_ & -> & _). reflexivity. }
  rewrite EL, E2. unfold is_at_end.
  rewrite (proj2 (proj2 C2)).
  destruct (adv_step _ s_quote rest s2 C2 P2 eq_refl) as (C3 & P3 & K3 & Cu).
  assert (V3 : valid_source (body ++ [s_quote] ++ rest)) by now inversion V.
  assert (SV : source_slice (adv s2) (peek_index s1) (sc_current (adv s2))
               = Done (sconcat body)).
  { rewrite Cu, (peek_index_core _ _ _ C1).
    unfold source_slice. destruct C3 as (-> & _).
    rewrite <- !app_assoc. cbn [app].
    replace (b ++ s_quote :: body ++ s_quote :: rest)
      with ((b ++ [s_quote]) ++ body ++ ([s_quote] ++ rest))
      by (rewrite <- !app_assoc; reflexivity).
    replace (b ++ s_quote :: body) with ((b ++ [s_quote]) ++ body)
      by (rewrite <- !app_assoc; reflexivity).
    now rewrite slice_clusters. }
  rewrite SV. cbn [obind]. unfold add_string_literal_token.
  assert (C3' : core (b ++ s_quote :: body ++ [s_quote]) rest (adv s2)).
  { replace (b ++ s_quote :: body ++ [s_quote])
      with (((b ++ [s_quote]) ++ body) ++ [s_quote])
      by (rewrite <- !app_assoc; reflexivity). exact C3. }
  assert (P3' : posn (b ++ s_quote :: body ++ [s_quote]) (adv s2)).
  { replace (b ++ s_quote :: body ++ [s_quote])
      with (((b ++ [s_quote]) ++ body) ++ [s_quote])
      by (rewrite <- !app_assoc; reflexivity). exact P3. }
  pose proof (same_trans _ _ _ K2 K3) as K.
  assert (SS : sc_start (adv s2) = slen (sconcat b)).
  { rewrite (k_start _ _ K). apply S1. }
  rewrite (source_slice_core b _ rest _ C3' V' SS). cbn [obind].
  eexists. split; [reflexivity|]. unfold after. cbn zeta. split.
  - pose proof (same_fields _ _ _ K F1) as F3. destruct F3. constructor; cbn; auto.
    rewrite f_toks, L1, (k_scol _ _ K). destruct S1 as [_ ->]. reflexivity.
  - split; [exact C3'|exact P3'].
Qed.

Lemma position_bound b : (loc_column (position b) <= 65535)%N.
Proof. unfold position, u16_max. cbn [loc_column]. lia. Qed.

Lemma scan_open_string_agrees b body s m :
  entered b s_quote body s m -> valid_source (s_quote :: body) ->
  Forall (fun g => g <> s_quote) body ->
  let e := OpenString (s_quote :: body) in
  agrees b e nil (mstep m (b, e)) (scan_cluster U s_quote s).
Proof.
  intros E V F e.
  change (scan_cluster U s_quote s) with
   (olet s1 <- bol_indentation_tokens s ;;
    olet s2 <- scan_string s1 ;;
    Done (s2, false, false)).
  unfold mstep. cbn [snd fst]. unfold e at 1. cbn [snd].
  assert (E' : entered b s_quote (body ++ nil) s m) by (rewrite app_nil_r; exact E).
  assert (V' : valid_source (elem_text e ++ nil)) by (rewrite app_nil_r; exact V).
  pose proof (bol_entered b s_quote body nil s m e E' eq_refl V') as B.
  destruct (mopen m (b, e)) as [m1|].
  2:{ rewrite B. reflexivity. }
  destruct B as (s1 & B & E1). rewrite B. cbn [obind agrees].
  pose proof (entered_posn _ _ _ _ _ E1 eq_refl) as P1.
  destruct E1 as [C1 S1 L1 Co1 F1].
  unfold scan_string.
  destruct (string_loop_body body _ _ _ C1 P1 F) as (s2 & EL & C2 & P2 & K2).
  rewrite EL. rewrite <- app_assoc in C2, P2. cbn [app] in C2, P2.
  assert (G2 : sc_gi s2 = nil) by apply C2.
  rewrite G2. cbn [string_loop].
  assert (A : adv s2 = set_eof true (set_column (sat_succ16 (sc_column s2)) s2)).
  { unfold adv, advance. cbn [sc_gi set_column]. rewrite G2. reflexivity. }
  rewrite A. cbn [is_at_end sc_eof set_eof].
  eexists. split; [reflexivity|]. unfold after. cbn zeta. split.
  - pose proof (same_fields _ _ _ K2 F1) as F3. destruct F3.
    constructor; cbn -[position]; auto.
    rewrite f_errs. destruct P2 as [-> ->].
    do 4 f_equal.
    pose proof (position_bound (b ++ s_quote :: body)) as Bd.
    unfold sat_pred, sat_succ16, u16_max. lia.
  - split; [exact G2|]. split; [reflexivity|]. split.
    + destruct C2 as (SC & _). rewrite app_nil_r in SC. exact SC.
    + cbn. rewrite (k_start _ _ K2). apply S1.
Qed.

(** Numbers, words and stray clusters. *)
Lemma is_digit_spec g : is_digit g = true <-> digit_cluster g.
Proof.
  unfold is_digit, digit_cluster. rewrite !orb_true_iff, !String.eqb_eq. cbn.
  intuition (subst; tauto).
Qed.

Lemma scan_default g s :
  ~ In g special ->
  scan_cluster U g s =
   (olet s1 <- bol_indentation_tokens s ;;
    if is_digit g then
      olet s2 <- scan_number s1 ;; Done (s2, false, false)
    else if is_alphabetic U g then
      olet s2 <- scan_identifier U s1 ;; Done (s2, false, false)
    else
      Done (error (cause_new (mkLoc (sc_line s1) (sc_column s1))
                             ("Unexpected token: " ++ g)) s1, false, false)).
Proof.
  intros N. unfold scan_cluster.
  repeat match goal with
  | |- (if String.eqb g ?x then _ else _) = _ =>
    replace (String.eqb g x) with false
      by (symmetry; apply String.eqb_neq; intros ->; apply N; cbn; tauto)
  end.
  reflexivity.
Qed.

Lemma digit_not_special g : digit_cluster g -> ~ In g special.
Proof.
  intros [<-|[<-|[<-|[<-|[<-|[<-|[<-|[<-|[<-|[<-|[]]]]]]]]]]] H;
    cbn in H; intuition discriminate.
Qed.
Lemma digit_no_nl g : digit_cluster g -> String.eqb g s_nl = false.
Proof.
  intros [<-|[<-|[<-|[<-|[<-|[<-|[<-|[<-|[<-|[<-|[]]]]]]]]]]]; reflexivity.
Qed.
Lemma digits_no_nl ds : Forall digit_cluster ds -> no_nl ds.
Proof. intros H. eapply Forall_impl; [|exact H]. exact digit_no_nl. Qed.
Lemma digits_are ds :
  Forall digit_cluster ds -> Forall (fun g => is_digit g = true) ds.
Proof. intros H. eapply Forall_impl; [|exact H]. intros. now apply is_digit_spec. Qed.
Lemma next_not_digit rest :
  next_not digit_cluster rest ->
  match rest with nil => True | g :: _ => is_digit g = false end.
Proof.
  destruct rest; cbn [next_not]; [tauto|]. intros H. rewrite <- is_digit_spec in H.
  destruct (is_digit s); [tauto|reflexivity].
Qed.

(** The end of [scan_number], once the lexeme has been read. *)
Lemma number_finish b text rest x s m e :
  e = Tok Number text None (Some x) ->
  core (b ++ text) rest s -> posn (b ++ text) s -> started b s ->
  fields s m -> no_nl text -> valid_source (text ++ rest) ->
  parse_f64 (sconcat text) = Some x ->
  exists s2,
    (olet value <- source_slice s (sc_start s) (peek_index s) ;;
     match parse_f64 value with
     | None => Panicked ("Unable to parse string as f64: " ++ value)%string
     | Some number => add_number_literal_token number s
     end) = Done s2 /\
    after b e rest (mset false true
      (mtok [mk_at Number (sconcat text) None (Some x) (position b)] m))
      (s2, false, false).
Proof.
  intros -> C P S F N V X.
  rewrite (source_slice_core b text rest) by (assumption || apply S).
  cbn [obind]. rewrite X. unfold add_number_literal_token.
  rewrite (source_slice_core b text rest) by (assumption || apply S).
  cbn [obind]. eexists. split; [reflexivity|]. unfold after. cbn zeta. split.
  - destruct F. destruct S as [_ Sc]. constructor; cbn; auto.
    rewrite f_toks, Sc, (proj1 P), position_line by assumption. reflexivity.
  - split; [exact C|exact P].
Qed.

Lemma same_started b s s' : same s s' -> started b s -> started b s'.
Proof. intros [] [? ?]. split; congruence. Qed.

Lemma scan_integer_agrees b g ds rest x s m :
  entered b g (ds ++ rest) s m -> valid_source (g :: ds ++ rest) ->
  Forall digit_cluster (g :: ds) -> next_not digit_cluster rest ->
  ~ (exists d r, rest = "." :: d :: r /\ digit_cluster d) ->
  parse_f64 (sconcat (g :: ds)) = Some x ->
  let e := Tok Number (g :: ds) None (Some x) in
  agrees b e rest (mstep m (b, e)) (scan_cluster U g s).
Proof.
  intros E V F X ND Px e.
  inversion F as [|? ? Fg Fds]; subst.
  rewrite scan_default by now apply digit_not_special.
  unfold mstep. cbn [snd fst]. unfold e at 1. cbn [snd].
  pose proof (bol_entered b g ds rest s m e E eq_refl V) as B.
  destruct (mopen m (b, e)) as [m1|].
  2:{ rewrite B. reflexivity. }
  destruct B as (s1 & B & E1). rewrite B. cbn [obind agrees].
  rewrite (proj2 (is_digit_spec g) Fg).
  pose proof (entered_posn _ _ _ _ _ E1 (digit_no_nl _ Fg)) as P1.
  destruct E1 as [C1 S1 L1 Co1 F1].
  unfold scan_number.
  destruct (advance_while_core is_digit ds _ rest s1 C1 P1 (digits_are _ Fds)
              (next_not_digit _ X) (digits_no_nl _ Fds)) as (C2 & P2 & K2).
  set (s2 := advance_while is_digit (sc_gi s1) s1) in *.
  rewrite <- app_assoc in C2, P2. cbn [app] in C2, P2.
  assert (E3 : (if is_match "." s2
                then advance_while is_digit
                  (sc_gi match peek_next_grapheme s2 with
                         | Some c => if is_digit c then adv s2 else s2
                         | None => s2 end)
                  match peek_next_grapheme s2 with
                  | Some c => if is_digit c then adv s2 else s2
                  | None => s2 end
                else s2) = s2).
  { unfold is_match, peek_grapheme, peek_next_grapheme.
    destruct C2 as (_ & G & _). rewrite G.
    destruct rest as [|dot [|d r]]; cbn -[is_digit]; [reflexivity| |].
    - destruct (String.eqb_spec dot "."); [subst|reflexivity].
      rewrite G. cbn -[is_digit]. reflexivity.
    - destruct (String.eqb_spec dot "."); [subst|reflexivity].
      destruct (is_digit d) eqn:D.
      + exfalso. apply ND. exists d, r. split; [reflexivity|].
        now apply is_digit_spec.
      + rewrite G. cbn -[is_digit]. reflexivity. }
  cbv zeta. rewrite E3.
  destruct (number_finish b (g :: ds) rest x s2 m1 e eq_refl C2 P2
              (same_started _ _ _ K2 S1) (same_fields _ _ _ K2 F1)
              (digits_no_nl _ F) V Px) as (s3 & H1 & H2).
  rewrite H1. cbn [obind]. eexists. split; [reflexivity|exact H2].
Qed.

Lemma scan_decimal_agrees b g ds fs rest x s m :
  entered b g (ds ++ "." :: fs ++ rest) s m ->
  valid_source (g :: ds ++ "." :: fs ++ rest) ->
  Forall digit_cluster (g :: ds) -> fs <> nil -> Forall digit_cluster fs ->
  next_not digit_cluster rest ->
  parse_f64 (sconcat ((g :: ds) ++ "." :: fs)) = Some x ->
  let e := Tok Number ((g :: ds) ++ "." :: fs) None (Some x) in
  agrees b e rest (mstep m (b, e)) (scan_cluster U g s).
Proof.
  intros E V F NF Ff X Px e.
  inversion F as [|? ? Fg Fds]; subst.
  rewrite scan_default by now apply digit_not_special.
  unfold mstep. cbn [snd fst]. unfold e at 1. cbn [snd].
  assert (E' : entered b g ((ds ++ "." :: fs) ++ rest) s m)
    by (rewrite <- app_assoc; exact E).
  assert (V' : valid_source (elem_text e ++ rest)).
  { unfold e. cbn. rewrite <- app_assoc. exact V. }
  pose proof (bol_entered b g (ds ++ "." :: fs) rest s m e E' eq_refl V') as B.
  destruct (mopen m (b, e)) as [m1|].
  2:{ rewrite B. reflexivity. }
  destruct B as (s1 & B & E1). rewrite B. cbn [obind agrees].
  rewrite <- app_assoc in E1.
  rewrite (proj2 (is_digit_spec g) Fg).
  pose proof (entered_posn _ _ _ _ _ E1 (digit_no_nl _ Fg)) as P1.
  destruct E1 as [C1 S1 L1 Co1 F1].
  unfold scan_number.
  destruct (advance_while_core is_digit ds _ ("." :: fs ++ rest) s1 C1 P1
              (digits_are _ Fds) eq_refl (digits_no_nl _ Fds)) as (C2 & P2 & K2).
  set (s2 := advance_while is_digit (sc_gi s1) s1) in *.
  assert (M : is_match "." s2 = true).
  { unfold is_match, peek_grapheme. destruct C2 as (_ & -> & _). reflexivity. }
  assert (Pn : match peek_next_grapheme s2 with
               | Some c => if is_digit c then adv s2 else s2
               | None => s2 end = adv s2).
  { unfold peek_next_grapheme. destruct C2 as (_ & -> & _).
    destruct fs as [|d fs]; [congruence|]. cbn -[is_digit].
    inversion Ff; subst. rewrite (proj2 (is_digit_spec d)) by assumption.
    reflexivity. }
  rewrite M. cbv zeta. rewrite Pn.
  destruct (adv_step _ _ _ _ C2 P2 eq_refl) as (C3 & P3 & K3 & _).
  destruct (advance_while_core is_digit fs _ rest (adv s2) C3 P3
              (digits_are _ Ff) (next_not_digit _ X) (digits_no_nl _ Ff))
    as (C4 & P4 & K4).
  set (s4 := advance_while is_digit (sc_gi (adv s2)) (adv s2)) in *.
  assert (TE : (((b ++ [g]) ++ ds) ++ ["."]) ++ fs = b ++ (g :: ds) ++ "." :: fs)
    by (rewrite <- !app_assoc; reflexivity).
  rewrite TE in C4, P4.
  pose proof (same_trans _ _ _ K2 (same_trans _ _ _ K3 K4)) as K.
  destruct (number_finish b ((g :: ds) ++ "." :: fs) rest x s4 m1 e eq_refl C4 P4
              (same_started _ _ _ K S1) (same_fields _ _ _ K F1))
    as (s5 & H1 & H2); [|exact V'|exact Px|].
  { apply Forall_app. split; [now apply digits_no_nl|].
    constructor; [reflexivity|]. now apply digits_no_nl. }
  rewrite H1. cbn [obind]. eexists. split; [reflexivity|exact H2].
Qed.

Lemma first_char_valid g : starts_char g -> exists c, first_char g = Some c.
Proof.
  destruct g as [|c g]; cbn; [tauto|]. intros _.
  repeat match goal with |- context [if ?x then _ else _] => destruct x end;
    eexists; reflexivity.
Qed.
Lemma is_alphanumeric_spec g :
  starts_char g -> is_alphanumeric U g = true <-> continues_word U g.
Proof.
  intros V. destruct (first_char_valid g V) as [c E].
  unfold is_alphanumeric, continues_word. rewrite E.
  rewrite orb_true_iff, N.eqb_eq. split.
  - intros H. exists c. auto.
  - intros (d & E' & H). injection E' as <-. exact H.
Qed.
Lemma is_alphabetic_spec g :
  starts_char g -> is_alphabetic U g = true <-> starts_word U g.
Proof.
  intros V. destruct (first_char_valid g V) as [c E].
  unfold is_alphabetic, starts_word. rewrite E.
  rewrite orb_true_iff, N.eqb_eq. split.
  - intros H. exists c. auto.
  - intros (d & E' & H). injection E' as <-. exact H.
Qed.

Lemma lookup_kind w k :
  word_kind w k ->
  match lookup_keyword keywords w with None => Identifier | Some t => t end = k.
Proof.
  change (lookup_keyword keywords w) with (assoc reserved w).
  destruct 1 as [w k H|w H].
  - cbn in H.
    repeat match goal with H : _ \/ _ |- _ => destruct H as [H|H] end;
      try contradiction; injection H as <- <-; reflexivity.
  - apply assoc_none in H. now rewrite H.
Qed.

Lemma not_special_no_nl g : ~ In g special -> String.eqb g s_nl = false.
Proof.
  intros H. apply String.eqb_neq. intros ->. apply H. cbn. tauto.
Qed.

Lemma mset_kind_word w k : word_kind w k -> k <> LeftParen /\ continuing_kind k = false.
Proof.
  destruct 1 as [w k H|w H]; [|split; [discriminate|reflexivity]].
  cbn in H. repeat match goal with H : _ \/ _ |- _ => destruct H as [H|H] end;
    try contradiction; injection H as <- <-; (split; [discriminate|reflexivity]).
Qed.

(** Clusters that continue a word contain no newline, by [sane]. *)
Lemma continues_no_nl g : sane U -> continues_word U g -> String.eqb g s_nl = false.
Proof.
  intros Sn (c & E & H). apply String.eqb_neq. intros ->.
  cbn in E. injection E as <-. unfold sane in Sn. rewrite Sn in H.
  destruct H; discriminate.
Qed.

Lemma scan_word_agrees b g gs rest k s m :
  sane U ->
  entered b g (gs ++ rest) s m -> valid_source (g :: gs ++ rest) ->
  ~ In g special -> ~ digit_cluster g -> starts_word U g ->
  Forall (continues_word U) gs -> next_not (continues_word U) rest ->
  word_kind (sconcat (g :: gs)) k ->
  let e := Tok k (g :: gs) None None in
  agrees b e rest (mstep m (b, e)) (scan_cluster U g s).
Proof.
  intros Sn E V NS ND SW F X WK e.
  rewrite scan_default by assumption.
  unfold mstep. cbn [snd fst]. unfold e at 1. cbn [snd].
  pose proof (bol_entered b g gs rest s m e E eq_refl V) as B.
  destruct (mopen m (b, e)) as [m1|].
  2:{ rewrite B. reflexivity. }
  destruct B as (s1 & B & E1). rewrite B. cbn [obind agrees].
  replace (is_digit g) with false.
  2:{ symmetry. rewrite <- is_digit_spec in ND. now destruct (is_digit g). }
  inversion V as [|? ? Vg Vr]; subst.
  rewrite (proj2 (is_alphabetic_spec g Vg) SW).
  pose proof (entered_posn _ _ _ _ _ E1 (not_special_no_nl _ NS)) as P1.
  destruct E1 as [C1 S1 L1 Co1 F1].
  unfold scan_identifier.
  apply Forall_app in Vr. destruct Vr as [Vgs Vrest].
  assert (NN : no_nl gs).
  { eapply Forall_impl; [|exact F]. intros. now apply continues_no_nl. }
  destruct (advance_while_core (is_alphanumeric U) gs _ rest s1 C1 P1)
    as (C2 & P2 & K2).
  - clear -F Vgs. induction F; [constructor|]. inversion Vgs; subst.
    constructor; [now apply is_alphanumeric_spec|auto].
  - destruct rest as [|h r]; [exact I|]. cbn in X. inversion Vrest; subst.
    rewrite <- is_alphanumeric_spec in X by assumption.
    now destruct (is_alphanumeric U h).
  - exact NN.
  - set (s2 := advance_while (is_alphanumeric U) (sc_gi s1) s1) in *.
    rewrite <- app_assoc in C2, P2. cbn [app] in C2, P2.
    pose proof (same_started _ _ _ K2 S1) as S2.
    cbv zeta. rewrite (source_slice_core b (g :: gs) rest) by (assumption || apply S2).
    cbn [obind]. rewrite (lookup_kind _ _ WK).
    destruct (mset_kind_word _ _ WK) as [NK CK].
    assert (NN' : no_nl (g :: gs)).
    { constructor; [now apply not_special_no_nl|exact NN]. }
    destruct (push_after b e k k (g :: gs) rest s2 m1 false eq_refl C2 P2 S2)
      as (s3 & H1 & H2).
    + destruct P2 as [-> _]. now apply position_line.
    + exact (same_fields _ _ _ K2 F1).
    + exact V.
    + rewrite H1. cbn [obind]. eexists. split; [reflexivity|].
      rewrite CK. replace (match k with LeftParen => if m_abut m
        then LeftParenAbutting else LeftParen | _ => k end) with k
        by (destruct k; congruence).
      exact H2.
Qed.

Lemma scan_stray_agrees b g rest s m :
  entered b g rest s m -> valid_source (g :: rest) ->
  ~ In g special -> ~ digit_cluster g -> ~ starts_word U g ->
  agrees b (Stray g) rest (mstep m (b, Stray g)) (scan_cluster U g s).
Proof.
  intros E V NS ND SW.
  rewrite scan_default by assumption.
  unfold mstep. cbn [snd fst].
  pose proof (bol_entered b g nil rest s m (Stray g) E eq_refl V) as B.
  destruct (mopen m (b, Stray g)) as [m1|].
  2:{ rewrite B. reflexivity. }
  destruct B as (s1 & B & E1). rewrite B. cbn [obind agrees].
  replace (is_digit g) with false.
  2:{ symmetry. rewrite <- is_digit_spec in ND. now destruct (is_digit g). }
  inversion V as [|? ? Vg Vr]; subst.
  rewrite <- (is_alphabetic_spec g Vg) in SW.
  replace (is_alphabetic U g) with false by now destruct (is_alphabetic U g).
  cbn [app] in E1.
  pose proof (entered_posn _ _ _ _ _ E1 (not_special_no_nl _ NS)) as P1.
  destruct E1 as [C1 S1 L1 Co1 F1].
  eexists. split; [reflexivity|]. unfold after. cbn zeta. split.
  - destruct F1. constructor; cbn -[position]; auto.
    rewrite f_errs, L1, Co1. reflexivity.
  - split; [exact C1|exact P1].
Qed.

(** The first cluster of an element, and what [scan_cluster] does on it. *)
Lemma scan_cluster_agrees b e rest s m g t :
  sane U -> lexeme U e rest -> elem_text e = g :: t ->
  valid_source (elem_text e ++ rest) ->
  entered b g (t ++ rest) s m ->
  agrees b e rest (mstep m (b, e)) (scan_cluster U g s).
Proof.
  intros Sn L Te V E. rewrite Te in V. cbn [app] in V.
  destruct L; cbn [elem_text] in Te.
  - injection Te as <- <-. cbn in H.
    destruct H as [H|H].
    { injection H as <- <-. now apply scan_paren_agrees. }
    repeat (destruct H as [H|H];
      [injection H as <- <-; apply scan_punct_agrees;
       [exact E|exact V|reflexivity|discriminate|reflexivity]|]).
    contradiction.
  - injection Te as <- <-. cbn in H.
    repeat (destruct H as [H|H];
      [injection H as <- <- <-;
       match goal with |- agrees _ (Tok ?k2 [?g; _] _ _) _ _ _ =>
         apply scan_op_eq_agrees; [exact E|exact V|reflexivity|discriminate|reflexivity]
       end|]).
    contradiction.
  - injection Te as <- <-. cbn in H.
    repeat (destruct H as [H|H];
      [injection H as <- <- <-;
       apply scan_op_agrees;
       [exact E|exact V|reflexivity|discriminate|reflexivity|assumption]|]).
    contradiction.
  - injection Te as <- <-. now apply scan_slash_agrees.
  - injection Te as <- <-. now apply scan_comment_agrees.
  - injection Te as <- <-. rewrite <- app_assoc in E, V.
    now apply scan_string_agrees.
  - injection Te as <- <-. rewrite app_nil_r in E, V.
    now apply scan_open_string_agrees.
  - destruct ds as [|d ds]; [congruence|]. injection Te as <- <-.
    eapply scan_integer_agrees; eassumption.
  - destruct ds as [|d ds]; [congruence|]. injection Te as <- <-.
    rewrite <- app_assoc in E, V.
    eapply scan_decimal_agrees; eassumption.
  - injection Te as <- <-. now apply scan_word_agrees.
  - injection Te as <- <-. now apply scan_space_agrees.
  - injection Te as <- <-. now apply scan_cr_agrees.
  - injection Te as <- <-. now apply scan_nl_agrees.
  - injection Te as <- <-. now apply scan_tab_agrees.
  - injection Te as <- <-. rewrite <- !app_assoc in E.
    now apply scan_continuation_agrees.
  - injection Te as <- <-.
    pose proof (scan_stray_backslash_agrees b n nil rest s m E) as H1.
    rewrite app_nil_r in H1. apply H1. left. auto.
  - injection Te as <- <-. rewrite <- !app_assoc in E.
    apply scan_stray_backslash_agrees; auto.
  - injection Te as <- <-. now apply scan_stray_agrees.
Qed.

(** One call of [scan_token] is one step of the machine. *)
Definition arrived (b : list string) (e : elem) (rest : list string)
           (s : scanner) : Prop :=
  match e with
  | OpenString _ =>
    sc_gi s = nil /\ sc_eof s = true /\
    sc_source s = sconcat (b ++ elem_text e) /\ sc_start s = slen (sconcat b)
  | _ => core (b ++ elem_text e) rest s /\ posn (b ++ elem_text e) s
  end.

Theorem scan_token_step b e rest s m :
  sane U -> lexeme U e rest -> valid_source (elem_text e ++ rest) ->
  core b (elem_text e ++ rest) s -> posn b s -> fields s m ->
  match mstep m (b, e) with
  | None => scan_token U (set_start (peek_index s) s) = Diverged
  | Some m' => exists s', scan_token U (set_start (peek_index s) s) = Done s' /\
                          fields s' m' /\ arrived b e rest s'
  end.
Proof.
  intros Sn L V C P F.
  pose proof (lexeme_text_nonempty U e rest L) as NE.
  destruct (elem_text e) as [|g t] eqn:Te; [congruence|].
  destruct (scan_token_enter b g (t ++ rest) s m C P F) as (s1 & E & R).
  rewrite R. rewrite <- Te in V.
  pose proof (scan_cluster_agrees b e rest s1 m g t Sn L Te V E) as A.
  unfold agrees in A.
  destruct (mstep m (b, e)) as [m'|].
  - destruct A as ([[s2 w] f] & -> & A). cbn [obind].
    eexists. split; [reflexivity|]. exact A.
  - rewrite A. reflexivity.
Qed.
End Cluster.
