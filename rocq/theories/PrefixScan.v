(** The tokens before a point where no block is open are those of an initial part of the source. *)
From Verif Require Import Base F64 Token Scanner SpecLex SpecLayout SpecScan SpecGrammar
  ScanLex ScanStep ScanLayout ScanUnique ScanProps ScanErrors ScanPairs ConcatScan Prefix.
From Coq Require Import ZArith Lia.

(** ** Elements *)
Lemma next_not_prefix p x r : next_not p (x ++ r) -> next_not p x.
Proof. destruct x; cbn; auto. Qed.
Lemma lexeme_prefix U e x r : lexeme U e (x ++ r) -> lexeme U e x.
Proof.
  intros L. inversion L; subst; try (econstructor; eauto using next_not_prefix; fail).
  - destruct x; [|discriminate]. now constructor.
  - constructor; eauto using next_not_prefix. intros (d & q & -> & D).
    match goal with H : ~ _ |- _ => apply H end. exists d, (q ++ r). auto.
Qed.
Lemma lexes_text U gs es : lexes U gs es -> gs = text_of es.
Proof. induction 1; cbn; auto. now f_equal. Qed.
Lemma lexes_prefix U a b : forall gs, lexes U gs (a ++ b) -> lexes U (text_of a) a.
Proof.
  induction a as [|e a IH]; intros gs L; [constructor|]. inversion L as [|? rest ? L1 L2]; subst.
  cbn. constructor; [|eapply IH; eauto]. rewrite (lexes_text _ _ _ L2), text_of_app in L1.
  eapply lexeme_prefix; eauto.
Qed.

(** ** Lines *)
Lemma split_prefix (ps : list placed) : forall acc L1 l L2 b1 b2,
  split_lines acc ps = L1 ++ l :: L2 -> body l = b1 ++ b2 ->
  (L1 = nil -> exists b, b1 = acc ++ b) ->
  exists ps1 ps2, ps = ps1 ++ ps2 /\ split_lines acc ps1 = L1 ++ [mkLine b1 ByEof].
Proof.
  induction ps as [|[bf e] ps IH]; intros acc L1 l L2 b1 b2 S B A.
  - cbn in S. destruct L1 as [|x L1]; [|destruct L1; discriminate]. injection S as <- <-. cbn in B.
    destruct (A eq_refl) as (b & ->). exists nil, nil. split; auto. cbn. do 3 f_equal.
    rewrite <- app_assoc in B. rewrite <- (app_nil_r acc) in B at 1. apply app_inv_head in B.
    destruct b; [now rewrite app_nil_r|discriminate].
  - destruct (is_line_end e) eqn:LE.
    + assert (exists en, forall q, split_lines acc (@cons placed (bf, e) q) = mkLine acc en :: split_lines nil q) as (en & SL)
        by (destruct e; try discriminate LE; eexists; reflexivity).
      rewrite SL in S. destruct L1 as [|x L1]; injection S as <- S.
      * cbn in B. destruct (A eq_refl) as (b & ->). exists nil, ((bf, e) :: ps). split; auto. cbn. do 3 f_equal.
        rewrite <- app_assoc in B. rewrite <- (app_nil_r acc) in B at 1. apply app_inv_head in B.
        destruct b; [now rewrite app_nil_r|discriminate].
      * destruct (IH nil L1 l L2 b1 b2 S B) as (ps1 & ps2 & -> & Q). { intros _. now exists b1. }
        exists ((bf, e) :: ps1), ps2. split; auto. cbn [app]. now rewrite SL, Q.
    + assert (SL : forall q, split_lines acc (@cons placed (bf, e) q) = split_lines (acc ++ [(bf, e)]) q)
        by (destruct e; try discriminate LE; reflexivity).
      rewrite SL in S. destruct L1 as [|x L1].
      * destruct (A eq_refl) as (b & ->). destruct b as [|y b].
        -- exists nil, ((bf, e) :: ps). split; auto. cbn. now rewrite app_nil_r.
        -- assert (y = (bf, e)).
           { destruct (split_lines_head (acc ++ [(bf, e)]) ps) as (c & en & r & H). rewrite H in S.
             cbn in S. injection S as <- _. cbn in B. rewrite <- !app_assoc in B. apply app_inv_head in B.
             cbn in B. congruence. }
           subst y. destruct (IH (acc ++ [(bf, e)]) nil l L2 (acc ++ (bf, e) :: b) b2 S B) as (ps1 & ps2 & -> & Q).
           { intros _. exists b. now rewrite <- app_assoc. }
           exists ((bf, e) :: ps1), ps2. split; auto. cbn [app]. now rewrite SL.
      * destruct (IH (acc ++ [(bf, e)]) (x :: L1) l L2 b1 b2 S B) as (ps1 & ps2 & -> & Q); [discriminate|].
        exists ((bf, e) :: ps1), ps2. split; auto. cbn [app]. now rewrite SL, Q.
Qed.

Lemma app_split {A} (x : list A) : forall p u q y, p ++ u :: q = x ++ y ->
  (exists q', x = p ++ u :: q') \/ (exists p', p = x ++ p' /\ y = p' ++ u :: q).
Proof.
  induction x as [|a x IH]; intros p u q y H.
  - right. exists p. auto.
  - destruct p as [|c p]; injection H as -> H.
    + left. exists x. reflexivity.
    + destruct (IH _ _ _ _ H) as [(q' & ->)|(p' & -> & ->)].
      * left. now exists q'.
      * right. now exists p'.
Qed.
Lemma elems_split (ps : list placed) : forall prev p u q, elems_tokens prev ps = p ++ u :: q ->
  exists b1 x b2, ps = b1 ++ x :: b2 /\ elems_tokens prev b1 = p.
Proof.
  induction ps as [|x ps IH]; intros prev p u q H; [destruct p; discriminate|]. cbn [elems_tokens] in H.
  assert (T : elem_tokens prev x = nil \/ exists t, elem_tokens prev x = [t]) by (destruct x as [b []]; cbn; eauto).
  destruct p as [|a p].
  - now exists nil, x, ps.
  - destruct T as [T|(t & T)]; rewrite T in H.
    + destruct (IH _ _ _ _ H) as (b1 & y & b2 & -> & E). exists (x :: b1), y, b2. split; auto. cbn [elems_tokens].
      now rewrite T, E.
    + injection H as -> H. destruct (IH _ _ _ _ H) as (b1 & y & b2 & -> & E). exists (x :: b1), y, b2. split; auto.
      cbn [elems_tokens]. now rewrite T, E.
Qed.
Lemma level_zero l : Forall (fun t => t_type t <> Indent /\ t_type t <> Outdent) l -> level l = 0%Z.
Proof.
  induction 1 as [|t l [A B] F IH]; auto. cbn [level]. rewrite IH. unfold level_of.
  destruct (t_type t); try reflexivity; congruence.
Qed.
Lemma level_outs n t : t_type t = Outdent -> level (repeat t n) = (- Z.of_nat n)%Z.
Proof. intros K. induction n as [|n IH]; [reflexivity|]. cbn [repeat level]. unfold level_of at 1. rewrite K. lia. Qed.
Lemma opening_level l stack joined op mi st :
  match content (body l) with
  | nil => Some (nil, nil, stack)
  | first :: _ => open_line stack joined (indentation (body l)) first
  end = Some (op, mi, st) -> Z.of_nat (length st) = (Z.of_nat (length stack) + level op)%Z.
Proof.
  destruct (content (body l)) as [|f c]; intros H.
  - injection H as <- <- <-. cbn. lia.
  - apply open_line_kinds in H. destruct H as [[-> H]|[(t & -> & K & H)|(n & t & -> & K & H)]].
    + cbn. lia.
    + cbn [level]. unfold level_of. rewrite K. lia.
    + rewrite level_outs by auto. lia.
Qed.
Lemma elems_level ps prev : text_kinds ps -> level (elems_tokens prev ps) = 0%Z.
Proof.
  intros K. apply level_zero. eapply Forall_impl; [|now apply elems_tokens_text]. intros t. unfold from_text.
  destruct (t_type t); intros F; split; intros Z; try discriminate Z; discriminate F.
Qed.
Lemma terminator_level l : level (terminator l) = 0%Z.
Proof. apply level_zero. eapply Forall_impl; [|apply terminator_kinds]. intros t ->. split; discriminate. Qed.
Lemma content_app b1 b2 : content b1 <> nil ->
  leading (b1 ++ b2) = leading b1 /\ exists f c c', content b1 = f :: c /\ content (b1 ++ b2) = f :: c' /\ c' = c ++ b2.
Proof.
  induction b1 as [|[b e] b1 IH]; intros N; [contradiction|]. cbn [leading content app] in *. destruct (is_blank e).
  - destruct (IH N) as [-> H]. auto.
  - split; auto. exists (b, e), b1, (b1 ++ b2). auto.
Qed.
Lemma errors_app a b : elems_errors (a ++ b) = elems_errors a ++ elems_errors b.
Proof. unfold elems_errors. apply flat_map_app. Qed.

Lemma layout_cut L : forall stack joined prev toks st p u q,
  layout stack joined prev L = Some (toks, nil, st) -> toks = p ++ u :: q ->
  t_type u <> Terminator -> t_type u <> Outdent ->
  (Z.of_nat (length stack) + level p = 0)%Z -> Forall (fun l => text_kinds (body l)) L ->
  exists L1 l L2 b1 b2 p1 outs st1, L = L1 ++ l :: L2 /\ body l = b1 ++ b2 /\
    layout stack joined prev (L1 ++ [mkLine b1 ByEof]) = Some (p1, nil, st1) /\
    p = p1 ++ outs /\ Forall (fun t => t_type t = Outdent) outs /\ length st1 = length outs.
Proof.
  induction L as [|l L IH]; intros stack joined prev toks st p u q H Q NT NO Lv TK.
  { cbn in H. injection H as <- _. destruct p; discriminate. }
  apply layout_cons in H. destruct H as (op & mi & st' & toks' & errs' & EO & EL & ET & EE).
  assert (OL := opening_level _ _ _ _ _ _ EO). inversion TK as [|? ? TK1 TK2]; subst.
  symmetry in EE. apply app_eq_nil in EE. destruct EE as [E1 EE]. apply app_eq_nil in EE. destruct EE as [-> EE].
  apply app_eq_nil in EE. destruct EE as [E2 ->].
  assert (BL : layout stack joined prev [mkLine nil ByEof] = Some (nil, nil, stack)) by reflexivity.
  destruct (app_split _ _ _ _ _ (eq_sym Q)) as [(q' & X)|(p' & -> & X)].
  - (* the token opens a block *)
    assert (P : p = nil /\ length stack = 0).
    { destruct (content (body l)) as [|f c]; [injection EO as <- _; destruct p; discriminate|].
      apply open_line_kinds in EO. destruct EO as [[-> _]|[(t & -> & K & _)|(n & t & -> & K & _)]].
      - destruct p; discriminate.
      - destruct p as [|? p]; [cbn in Lv; split; [auto|lia]|destruct p; discriminate].
      - exfalso. assert (I : In u (repeat t n)) by (rewrite X; apply in_or_app; right; now left).
        apply repeat_spec in I. congruence. }
    destruct P as [-> P]. exists nil, l, L, nil, (body l), nil, nil, stack. repeat split; auto.
  - symmetry in X. destruct (app_split _ _ _ _ _ X) as [(q' & Y)|(p'' & -> & Y)].
    + (* it stands in the line *)
      destruct (elems_split _ _ _ _ _ Y) as (b1 & x & b2 & B & P). 
      assert (TB : text_kinds b1). { rewrite B in TK1. now apply Forall_app in TK1. }
      destruct (content b1) as [|f c] eqn:C.
      * rewrite (blank_tokens _ _ C) in P. subst p'. rewrite app_nil_r in *.
        assert (OU : Forall (fun t => t_type t = Outdent) op /\ length stack = length op).
        { destruct (content (body l)) as [|f' c'].
          - injection EO as <- <-. split; [constructor|]. cbn in *. lia.
          - apply open_line_kinds in EO. destruct EO as [[-> _]|[(t & -> & K & _)|(n & t & -> & K & LN)]].
            + split; [constructor|]. cbn in *. lia.
            + exfalso. cbn [level] in Lv. unfold level_of in Lv. rewrite K in Lv. lia.
            + split; [apply Forall_forall; intros y I; apply repeat_spec in I; now subst|].
              rewrite repeat_length. rewrite level_outs in Lv by auto. lia. }
        exists nil, l, L, nil, (body l), nil, op, stack. repeat split; auto; tauto.
      * assert (NE : content b1 <> nil) by congruence.
        destruct (content_app b1 (x :: b2) NE) as [LE (f' & c0 & c' & C1 & C2 & C3)].
        rewrite <- B in LE, C2. rewrite C1 in C. injection C as -> ->.
        assert (LV : level p' = 0%Z) by (subst p'; now apply elems_level).
        exists nil, l, L, b1, (x :: b2), (op ++ p'), nil, st'.
        repeat split; auto; [|now rewrite app_nil_r|].
        -- cbn [app layout body]. rewrite C1. unfold indentation in *. rewrite LE in EO.
           rewrite C2 in EO. rewrite EO. cbn [layout terminator ending].
           rewrite P, <- LE, E1, !app_nil_r. rewrite C2, C3 in E2. cbn [app] in E2.
           change (f :: c ++ x :: b2) with ((f :: c) ++ x :: b2) in E2. rewrite errors_app in E2.
           apply app_eq_nil in E2. destruct E2 as [-> _]. reflexivity.
        -- rewrite level_app in Lv. cbn. lia.
    + symmetry in Y. destruct (app_split _ _ _ _ _ Y) as [(q' & Z)|(p3 & -> & Z)].
      * exfalso. assert (T := terminator_kinds l). rewrite Z in T. apply Forall_app in T. destruct T as [_ T].
        inversion T; subst. contradiction.
      * destruct (IH st' (joins_next joined l) (last_elem l) toks' st p3 u q EL Z NT NO) as
          (L1 & l' & L2 & b1 & b2 & p1 & outs & st1 & -> & B & LY & -> & O & LN).
        { rewrite !level_app, terminator_level, elems_level in Lv by auto. lia. }
        { auto. }
        exists (l :: L1), l', L2, b1, b2, (op ++ elems_tokens prev (body l) ++ terminator l ++ p1), outs, st1.
        repeat split; auto; [|now rewrite !app_assoc].
        cbn [app layout]. rewrite EO, LY, E1, E2. reflexivity.
Qed.

Lemma place_prefix ps1 : forall b es ps2, place b es = ps1 ++ ps2 ->
  exists es1 es2, es = es1 ++ es2 /\ place b es1 = ps1.
Proof.
  induction ps1 as [|x ps1 IH]; intros b es ps2 H; [now exists nil, es|].
  destruct es as [|e es]; [discriminate|]. cbn in H. injection H as <- H.
  destruct (IH _ _ _ H) as (es1 & es2 & -> & E). exists (e :: es1), es2. split; auto. cbn. now rewrite E.
Qed.
Lemma near_outs outs : Forall (fun t => t_type t = Outdent) outs -> forall x, t_type x = Outdent ->
  Forall2 near outs (repeat x (length outs)).
Proof. induction 1; intros x' K; cbn; constructor; auto. right. auto. Qed.
Lemma near_refl p : Forall2 near p p.
Proof. induction p; constructor; auto. now left. Qed.

Section Sources.
Variables (U : unicode) (Sn : sane U).
Theorem scan_cut gs p u q : valid_source gs -> scan_tokens U gs = Done (Ok (p ++ u :: q)) ->
  t_type u <> Terminator -> t_type u <> Outdent -> t_type u <> Eof -> level p = 0%Z ->
  exists a b p' e, gs = a ++ b /\ scan_tokens U a = Done (Ok (p' ++ [e])) /\ t_type e = Eof /\ Forall2 near p p'.
Proof.
  intros V S NT NO NE LV. destruct (lexes_total U gs) as [es L].
  rewrite (scan_correct U Sn gs es V L) in S. unfold scan_spec in S.
  destruct (layout nil false None (split_lines nil (place nil es))) as [[[toks errs] st]|] eqn:LY; [|discriminate].
  destruct errs as [|]; [|discriminate].
  assert (Q : toks ++ closing (length st) gs = p ++ u :: q) by congruence. clear S.
  symmetry in Q. destruct (app_split _ _ _ _ _ Q) as [(q' & X)|(p' & -> & X)].
  2:{ exfalso. assert (I : In u (closing (length st) gs)) by (rewrite X; apply in_or_app; right; now left).
      unfold closing in I. apply in_app_or in I. destruct I as [I|[<-|[]]]; [|now apply NE].
      apply repeat_spec in I. subst u. now apply NO. }
  assert (TK : Forall (fun l => text_kinds (body l)) (split_lines nil (place nil es))).
  { apply Forall_forall. intros l I. apply Forall_forall. intros x Ix.
    assert (K := lexes_text_kinds U gs es L nil). unfold text_kinds in K. rewrite Forall_forall in K. apply K.
    exact (split_bodies (place nil es) nil (Forall_nil _) l I x Ix). }
  destruct (layout_cut _ _ _ _ _ _ _ _ _ LY X NT NO) as (L1 & l & L2 & b1 & b2 & p1 & outs & st1 & SL & B & LY1 & -> & O & LN);
    [cbn; lia|auto|].
  destruct (split_prefix _ _ _ _ _ _ _ SL B) as (ps1 & ps2 & PS & SL1). { intros _. now exists b1. }
  destruct (place_prefix _ _ _ _ PS) as (es1 & es2 & -> & PL).
  assert (La := lexes_prefix U es1 es2 gs L). assert (G := lexes_text U gs _ L). rewrite text_of_app in G.
  assert (Va : valid_source (text_of es1)). { unfold valid_source in *. rewrite G in V. now apply Forall_app in V. }
  exists (text_of es1), (text_of es2).
  unfold closing in *.
  eexists (p1 ++ repeat _ (length outs)), _. split; [exact G|].
  split.
  { rewrite (scan_correct U Sn _ es1 Va La). unfold scan_spec. rewrite PL, SL1, LY1. unfold closing. rewrite LN, app_assoc.
    reflexivity. }
  split; [reflexivity|]. apply Forall2_app; [apply near_refl|]. now apply near_outs.
Qed.
End Sources.
