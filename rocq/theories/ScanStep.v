(** One call of [scan_token] processes one lexical element: the scanner refines
    a machine that steps over elements. *)
From Verif Require Import Base F64 Token Scanner SpecLex SpecLayout StrFacts ScanLex.

(** ** Positions *)
Lemma newlines_snoc b g :
  newlines (b ++ [g]) = newlines b + (if String.eqb g s_nl then 1 else 0).
Proof.
  unfold newlines. rewrite count_occ_app. f_equal. cbn [count_occ].
  destruct (String.string_dec g s_nl) as [->|N].
  - now rewrite String.eqb_refl.
  - apply String.eqb_neq in N. now rewrite N.
Qed.
Lemma since_newline_snoc n b g :
  since_newline n (b ++ [g]) =
  if String.eqb g s_nl then 0 else S (since_newline n b).
Proof.
  revert n. induction b as [|x b IH]; intros n; cbn.
  - destruct (String.eqb g s_nl); reflexivity.
  - destruct (String.eqb x s_nl); apply IH.
Qed.
Lemma position_step b g :
  String.eqb g s_nl = false ->
  position (b ++ [g]) =
  mkLoc (loc_line (position b)) (sat_succ16 (loc_column (position b))).
Proof.
  intros H. unfold position, sat_succ16.
  rewrite newlines_snoc, since_newline_snoc, H. cbn [loc_line loc_column].
  rewrite Nat.add_0_r. f_equal. unfold u16_max. lia.
Qed.
Lemma position_nl b :
  position (b ++ [s_nl]) = mkLoc (sat_succ32 (loc_line (position b))) 1.
Proof.
  unfold position, sat_succ32.
  rewrite newlines_snoc, since_newline_snoc, String.eqb_refl.
  cbn [loc_line loc_column]. f_equal; unfold u32_max, u16_max; lia.
Qed.
Lemma next_column_step b g :
  String.eqb g s_nl = false -> position (b ++ [g]) = next_column (position b).
Proof. intros H. rewrite position_step by assumption. reflexivity. Qed.

(** ** Parts of the scanner state *)
Definition core (before rest : list string) (s : scanner) : Prop :=
  sc_source s = sconcat (before ++ rest) /\
  sc_gi s = grapheme_indices (slen (sconcat before)) rest /\
  sc_eof s = false.
Definition posn (before : list string) (s : scanner) : Prop :=
  sc_line s = loc_line (position before) /\
  sc_column s = loc_column (position before).
(** Everything but source, clusters, current, line, column and eof. *)
Record same (s s' : scanner) : Prop := mkSame {
  k_toks : sc_tokens s' = sc_tokens s;
  k_errs : sc_errors s' = sc_errors s;
  k_ind : sc_indentation s' = sc_indentation s;
  k_start : sc_start s' = sc_start s;
  k_scol : sc_start_column s' = sc_start_column s;
  k_spaces : sc_bol_spaces s' = sc_bol_spaces s;
  k_bol : sc_is_bol s' = sc_is_bol s;
  k_only : sc_only_comment s' = sc_only_comment s;
  k_cont : sc_is_cont s' = sc_is_cont s;
  k_follow : sc_follow_cont s' = sc_follow_cont s;
  k_abut : sc_abutting s' = sc_abutting s
}.
Lemma same_refl s : same s s.
Proof. constructor; reflexivity. Qed.
Lemma same_trans a b c : same a b -> same b c -> same a c.
Proof. intros [] []. constructor; congruence. Qed.

Lemma gi_app i a b :
  grapheme_indices i (a ++ b) =
  grapheme_indices i a ++ grapheme_indices (i + slen (sconcat a)) b.
Proof.
  revert i. induction a as [|g a IH]; intros i; cbn.
  - now rewrite Nat.add_0_r.
  - rewrite IH, slen_append. do 3 f_equal. lia.
Qed.

Lemma slen_snoc b g : slen (sconcat (b ++ [g])) = slen (sconcat b) + slen g.
Proof. rewrite slen_sconcat_app. cbn. rewrite slen_append. cbn. lia. Qed.

Lemma adv_core b g r s :
  core b (g :: r) s ->
  core (b ++ [g]) r (adv s) /\ same s (adv s) /\
  sc_current (adv s) = slen (sconcat b) /\
  sc_line (adv s) = sc_line s /\ sc_column (adv s) = sat_succ16 (sc_column s).
Proof.
  intros (Hs & Hg & He). unfold adv, advance. cbn [sc_gi set_column].
  rewrite Hg. cbn. unfold core. cbn. rewrite <- app_assoc. cbn.
  repeat split; cbn; auto.
  now rewrite slen_snoc.
Qed.

Lemma adv_step b g r s :
  core b (g :: r) s -> posn b s -> String.eqb g s_nl = false ->
  core (b ++ [g]) r (adv s) /\ posn (b ++ [g]) (adv s) /\ same s (adv s) /\
  sc_current (adv s) = slen (sconcat b).
Proof.
  intros C [P1 P2] N.
  destruct (adv_core _ _ _ _ C) as (C' & K & Cu & L & Co).
  split; [assumption|]. split; [|split; assumption].
  split.
  - rewrite L, position_step by assumption. exact P1.
  - rewrite Co, position_step, P2 by assumption. reflexivity.
Qed.

Lemma advance_while_core p text : forall b rest s,
  core b (text ++ rest) s -> posn b s ->
  Forall (fun g => p g = true) text ->
  match rest with nil => True | g :: _ => p g = false end ->
  Forall (fun g => String.eqb g s_nl = false) text ->
  let s' := advance_while p (sc_gi s) s in
  core (b ++ text) rest s' /\ posn (b ++ text) s' /\ same s s'.
Proof.
  induction text as [|g text IH]; intros b rest s C P F X NL; cbn zeta.
  - rewrite app_nil_r. destruct C as (C1 & C2 & C3).
    assert (E : advance_while p (sc_gi s) s = s).
    { rewrite C2. destruct rest; cbn; [reflexivity|]. now rewrite X. }
    rewrite E. split; [|split].
    + repeat split; assumption.
    + assumption.
    + apply same_refl.
  - inversion F as [|? ? Pg F']; subst. inversion NL as [|? ? Ng NL']; subst.
    destruct (adv_step b g (text ++ rest) s C P Ng) as (C' & P' & K & _).
    destruct C as (C1 & C2 & C3).
    assert (E : advance_while p (sc_gi s) s
                = advance_while p (sc_gi (adv s)) (adv s)).
    { rewrite C2. cbn [app grapheme_indices advance_while]. rewrite Pg.
      destruct C' as (_ & -> & _). rewrite slen_snoc. reflexivity. }
    rewrite E.
    destruct (IH (b ++ [g]) rest (adv s) C' P' F' X NL') as (A & B & D).
    rewrite <- app_assoc in A, B. cbn in A, B.
    split; [|split]; auto. eapply same_trans; eassumption.
Qed.

(** The clusters read since the start of the element. *)
Definition started (b : list string) (s : scanner) : Prop :=
  sc_start s = slen (sconcat b) /\
  sc_start_column s = loc_column (position b).

Lemma peek_index_core b rest s :
  core b rest s -> peek_index s = slen (sconcat b).
Proof.
  intros (S & G & _). unfold peek_index. rewrite G.
  destruct rest; cbn; [|reflexivity].
  rewrite S, app_nil_r. reflexivity.
Qed.

Lemma source_slice_core b t rest s :
  core (b ++ t) rest s -> valid_source (t ++ rest) ->
  sc_start s = slen (sconcat b) ->
  source_slice s (sc_start s) (peek_index s) = Done (sconcat t).
Proof.
  intros C V S. rewrite (peek_index_core _ _ _ C), S.
  unfold source_slice. destruct C as (-> & _ & _).
  rewrite <- app_assoc. now rewrite slice_clusters.
Qed.

Lemma add_token_core k b t rest s :
  core (b ++ t) rest s -> valid_source (t ++ rest) ->
  sc_start s = slen (sconcat b) ->
  add_token k s =
  Done (push_token (mkToken k (sconcat t) None None (sc_line s)
                            (sc_start_column s)) s).
Proof.
  intros C V S. unfold add_token.
  rewrite (source_slice_core b t rest) by assumption. reflexivity.
Qed.

(** ** The element machine *)
Record mst : Type := mkM {
  m_toks : list token;
  m_errs : list cause;
  m_stack : list N;
  m_width : N;
  m_bol : bool;
  m_only : bool;
  m_cont : bool;
  m_follow : bool;
  m_abut : bool
}.

(** Which levels does a dedent to [w] close? *)
Fixpoint pop_levels (stack : list N) (w : N) : option (nat * list N * bool) :=
  match stack with
  | nil => Some (0, nil, false)
  | n :: r =>
    match (n ?= w)%N with
    | Datatypes.Eq => Some (0, stack, true)
    | Datatypes.Gt => match pop_levels r w with
                      | Some (c, st, f) => Some (S c, st, f)
                      | None => None
                      end
    | Datatypes.Lt => None
    end
  end.

Definition mopen (m : mst) (p : placed) : option mst :=
  if negb (m_bol m) then Some m
  else
    let '(before, e) := p in
    let tok k := mk_at k (first_cluster e) None None (position before) in
    let w := m_width m in
    match (w ?= hd 0%N (m_stack m))%N with
    | Datatypes.Eq =>
      Some (mkM (m_toks m) (m_errs m) (m_stack m) w false (m_only m) (m_cont m)
                (m_follow m) (m_abut m))
    | Datatypes.Gt =>
      if m_cont m then
        Some (mkM (m_toks m) (m_errs m) (m_stack m) w false (m_only m)
                  (m_cont m) (m_follow m) (m_abut m))
      else
        Some (mkM (m_toks m ++ [tok Indent]) (m_errs m) (w :: m_stack m) w false
                  (m_only m) (m_cont m) (m_follow m) (m_abut m))
    | Datatypes.Lt =>
      match pop_levels (m_stack m) w with
      | None => None
      | Some (c, st, found) =>
        Some (mkM (m_toks m ++ repeat (tok Outdent) c)
                  (if negb found && (0 <? w)%N
                   then m_errs m ++
                        [cause_new (next_column (position before))
                           "Outdent does not match any previous indentation level"]
                   else m_errs m)
                  st w false (m_only m) (m_cont m) (m_follow m) (m_abut m))
      end
    end.

Definition mreset (m : mst) : mst :=
  mkM (m_toks m) (m_errs m) (m_stack m) 0 true false
      (if m_bol m then m_cont m else m_follow m)
      (if m_bol m then m_follow m else false) (m_abut m).

Definition mset (follow abut : bool) (m : mst) : mst :=
  mkM (m_toks m) (m_errs m) (m_stack m) (m_width m) (m_bol m) (m_only m)
      (m_cont m) follow abut.
Definition mtok (ts : list token) (m : mst) : mst :=
  mkM (m_toks m ++ ts) (m_errs m) (m_stack m) (m_width m) (m_bol m) (m_only m)
      (m_cont m) (m_follow m) (m_abut m).
Definition merr (es : list cause) (m : mst) : mst :=
  mkM (m_toks m) (m_errs m ++ es) (m_stack m) (m_width m) (m_bol m) (m_only m)
      (m_cont m) (m_follow m) (m_abut m).
Definition monly (b : bool) (m : mst) : mst :=
  mkM (m_toks m) (m_errs m) (m_stack m) (m_width m) (m_bol m) b
      (m_cont m) (m_follow m) (m_abut m).
Definition mcont (b : bool) (m : mst) : mst :=
  mkM (m_toks m) (m_errs m) (m_stack m) (m_width m) (m_bol m) (m_only m)
      b (m_follow m) (m_abut m).
Definition mspace (m : mst) : mst :=
  mkM (m_toks m) (m_errs m) (m_stack m)
      (if m_bol m then sat_succ16 (m_width m) else m_width m) (m_bol m)
      (m_only m) (m_cont m) (m_follow m) (m_abut m).

Definition mstep (m : mst) (p : placed) : option mst :=
  match snd p with
  | Tok k text str num =>
    match mopen m p with
    | None => None
    | Some m1 =>
      let k' := match k with
                | LeftParen => if m_abut m then LeftParenAbutting else LeftParen
                | _ => k
                end in
      Some (mset (continuing_kind k) true
             (mtok [mk_at k' (sconcat text) str num (position (fst p))] m1))
    end
  | Space => Some (mset false false (mspace m))
  | Return_ => Some (mset false false m)
  | Newline =>
    Some (mset false false
           (mreset (mtok (if negb (m_bol m) && negb (m_follow m) && negb (m_only m)
                          then [mk_at Terminator s_nl None None (position (fst p))]
                          else nil) m)))
  | Comment _ =>
    match mopen m p with
    | None => None
    | Some m1 => Some (mset false true (monly (m_bol m) m1))
    end
  | Continuation _ => Some (mset false true (mcont true (mreset m)))
  | StrayTab => Some (mset false false (merr (elem_errors p) m))
  | StrayBackslash _ => Some (mset false true (merr (elem_errors p) m))
  | Stray _ =>
    match mopen m p with
    | None => None
    | Some m1 => Some (mset false true (merr (elem_errors p) m1))
    end
  | OpenString _ =>
    match mopen m p with
    | None => None
    | Some m1 => Some (mset false true (merr (elem_errors p) m1))
    end
  end.

(** The scanner state corresponds to the machine state. *)
Record fields (s : scanner) (m : mst) : Prop := mkFields {
  f_toks : sc_tokens s = m_toks m;
  f_errs : sc_errors s = m_errs m;
  f_stack : sc_indentation s = m_stack m;
  f_width : sc_bol_spaces s = m_width m;
  f_bol : sc_is_bol s = m_bol m;
  f_only : sc_only_comment s = m_only m;
  f_cont : sc_is_cont s = m_cont m;
  f_follow : sc_follow_cont s = m_follow m;
  f_abut : sc_abutting s = m_abut m
}.
Lemma same_fields s s' m : same s s' -> fields s m -> fields s' m.
Proof. intros [] []. constructor; congruence. Qed.

(** Setters that leave the cluster position alone. *)
Ltac fsolve :=
  repeat match goal with
         | H : fields _ _ |- _ => destruct H
         | H : same _ _ |- _ => destruct H
         end;
  cbn in *; subst; try congruence.

Lemma outdent_loop_spec b t rest l :
  valid_source (t ++ rest) -> forall stack s,
  core (b ++ t) rest s -> sc_start s = slen (sconcat b) ->
  sc_indentation s = stack ->
  sc_line s = loc_line l -> sc_start_column s = loc_column l ->
  match pop_levels stack (sc_bol_spaces s) with
  | None => outdent_loop stack s = Diverged
  | Some (c, st, found) =>
    outdent_loop stack s =
    Done (set_indentation st
            (set_tokens (sc_tokens s ++
               repeat (mk_at Outdent (sconcat t) None None l) c) s), found)
  end.
Proof.
  intros V. induction stack as [|n r IH]; intros s C S I L SC; cbn.
  - rewrite app_nil_r. destruct s; cbn in *; subst; reflexivity.
  - destruct (N.compare_spec n (sc_bol_spaces s)).
    + rewrite app_nil_r. destruct s; cbn in *; subst; reflexivity.
    + reflexivity.
    + rewrite (add_token_core Outdent b t rest) by assumption.
      cbn [obind].
      change (sc_line (set_indentation r s)) with (sc_line s).
      change (sc_start_column (set_indentation r s)) with (sc_start_column s).
      specialize (IH (push_token
                 (mkToken Outdent (sconcat t) None None
                    (sc_line s) (sc_start_column s))
                 (set_indentation r s))).
      cbn in IH. unfold core in IH. cbn in IH. specialize (IH C S eq_refl L SC).
      destruct (pop_levels r (sc_bol_spaces s)) as [[[c st] f]|]; [|assumption].
      rewrite IH. cbn. unfold mk_at, push_token. rewrite L, SC. cbn.
      rewrite <- app_assoc. destruct s; cbn in *. reflexivity.
Qed.

Lemma bol_spec b g t rest s m e :
  valid_source (t ++ rest) -> t = [g] -> first_cluster e = g ->
  core (b ++ t) rest s -> started b s ->
  sc_line s = loc_line (position b) ->
  sc_column s = loc_column (next_column (position b)) ->
  fields s m ->
  match mopen m (b, e) with
  | None => bol_indentation_tokens s = Diverged
  | Some m1 => exists s1, bol_indentation_tokens s = Done s1 /\
      fields s1 m1 /\ core (b ++ t) rest s1 /\ started b s1 /\
      sc_line s1 = sc_line s /\ sc_column s1 = sc_column s
  end.
Proof.
  intros V Et Ee C [S SC] L Co F.
  assert (St : sconcat t = g) by (subst t; cbn; apply append_nil_r).
  destruct F as [F1 F2 F3 F4 F5 F6 F7 F8 F9].
  unfold mopen, bol_indentation_tokens. rewrite F5.
  destruct (m_bol m) eqn:Eb; cbn [negb].
  2:{ exists s. split; [reflexivity|]. split; [constructor; congruence|].
      split; [exact C|]. repeat split; assumption. }
  rewrite F3, F4.
  assert (Hd : match m_stack m with nil => 0%N | n :: _ => n end
               = hd 0%N (m_stack m)) by (destruct (m_stack m); reflexivity).
  rewrite Hd.
  destruct (m_width m ?= hd 0%N (m_stack m))%N.
  - eexists. split; [reflexivity|]. split; [constructor; cbn; auto|].
    split; [exact C|]. repeat split; assumption.
  - rewrite <- F3.
    pose proof (outdent_loop_spec b t rest (position b) V (sc_indentation s) s
                  C S eq_refl L SC) as O.
    rewrite F4 in O.
    destruct (pop_levels (sc_indentation s) (m_width m)) as [[[c st] f]|].
    2:{ rewrite O. reflexivity. }
    rewrite O. cbn [obind]. cbn [set_indentation set_tokens sc_bol_spaces].
    rewrite F4.
    destruct (negb f && (0 <? m_width m)%N).
    + eexists. split; [reflexivity|]. split.
      * constructor; cbn; auto.
        -- rewrite F1, St, Ee. reflexivity.
        -- rewrite F2, L, Co. reflexivity.
      * split; [exact C|]. repeat split; assumption.
    + eexists. split; [reflexivity|]. split.
      * constructor; cbn; auto.
        rewrite F1, St, Ee. reflexivity.
      * split; [exact C|]. repeat split; assumption.
  - rewrite F7. destruct (m_cont m); cbn [negb].
    + eexists. split; [reflexivity|]. split; [constructor; cbn; auto|].
      split; [exact C|]. repeat split; assumption.
    + rewrite (add_token_core Indent b t rest) by assumption.
      cbn [obind]. eexists. split; [reflexivity|]. split.
      * constructor; cbn; auto; try congruence.
        -- rewrite F1, St, Ee, L, SC. reflexivity.
      * split; [exact C|]. repeat split; assumption.
Qed.
