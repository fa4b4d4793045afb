(** A text can be cut into lexical elements in only one way. *)
From Verif Require Import Base F64 Token Scanner SpecLex StrFacts ScanLex.

Section Unique.
Variable U : unicode.

Lemma span_exact p a b :
  Forall (fun g => p g = true) a ->
  match b with nil => True | g :: _ => p g = false end ->
  span p (a ++ b) = (a, b).
Proof.
  induction 1 as [|g a Hg F IH]; intros X; cbn [app].
  - destruct b; cbn; [reflexivity|]. now rewrite X.
  - cbn [span]. rewrite Hg, IH by assumption. reflexivity.
Qed.

Lemma assoc_absent {A} (l : list (string * A)) w :
  ~ In w (map fst l) -> assoc l w = None.
Proof. apply assoc_none. Qed.

Lemma special_assoc g :
  ~ In g special -> assoc punctuation g = None /\ assoc op_table g = None /\
  String.eqb g "/" = false /\ String.eqb g s_backslash = false /\
  String.eqb g s_tab = false /\ String.eqb g " " = false /\
  String.eqb g s_cr = false /\ String.eqb g s_nl = false /\
  String.eqb g s_quote = false.
Proof.
  intros N. unfold special in N. rewrite !in_app_iff in N.
  assert (X : forall x, In x ["/"; s_backslash; s_tab; " "; s_cr; s_nl; s_quote] ->
                        String.eqb g x = false).
  { intros x H. apply String.eqb_neq. intros ->. apply N. tauto. }
  split; [apply assoc_absent; intros H; apply N; tauto|].
  split; [apply assoc_absent; intros H; apply N; right; left; exact H|].
  repeat split; apply X; cbn; tauto.
Qed.

Lemma digit_ordinary g : digit_cluster g -> ~ In g special.
Proof.
  intros [<-|[<-|[<-|[<-|[<-|[<-|[<-|[<-|[<-|[<-|[]]]]]]]]]]] H;
    cbn in H; intuition discriminate.
Qed.

Lemma word_kind_unique w k : word_kind w k -> word_kind_of w = k.
Proof.
  unfold word_kind_of. destruct 1 as [w k H|w H].
  - cbn in H.
    repeat match goal with H : _ \/ _ |- _ => destruct H as [H|H] end;
      try contradiction; injection H as <- <-; reflexivity.
  - apply assoc_none in H. now rewrite H.
Qed.

Lemma digits_b ds : Forall digit_cluster ds -> Forall (fun g => digitb g = true) ds.
Proof. intros H. eapply Forall_impl; [|exact H]. intros. now apply digitb_spec. Qed.
Lemma next_digits rest :
  next_not digit_cluster rest ->
  match rest with nil => True | g :: _ => digitb g = false end.
Proof.
  destruct rest; cbn [next_not]; [tauto|]. intros H. rewrite <- digitb_spec in H.
  now destruct (digitb s).
Qed.

Lemma spaces_b n : Forall (fun g => String.eqb " " g = true) (repeat " " n).
Proof. apply Forall_forall. intros x H. apply repeat_spec in H. now subst. Qed.

Lemma lex_comment r :
  lex_one U "/" ("/" :: r) =
  (let '(b, r'') := span (fun x => negb (String.eqb x s_nl)) r in
   (Comment ("/" :: "/" :: b), r'')).
Proof. reflexivity. Qed.
Lemma lex_quote r :
  lex_one U s_quote r =
  (let '(b, r') := span (fun x => negb (String.eqb x s_quote)) r in
   match r' with
   | nil => (OpenString (s_quote :: b), nil)
   | _ :: r'' => (Tok TString (s_quote :: b ++ [s_quote]) (Some (sconcat b)) None, r'')
   end).
Proof. reflexivity. Qed.
Lemma lex_backslash r :
  lex_one U s_backslash r =
  (let '(sp, r1) := span (String.eqb " ") r in
   match r1 with
   | h :: r2 =>
     if String.eqb h s_nl
     then (Continuation (s_backslash :: repeat " " (length sp) ++ nil ++ [s_nl]), r2)
     else if String.eqb h s_cr then
       match r2 with
       | h' :: r3 =>
         if String.eqb h' s_nl
         then (Continuation (s_backslash :: repeat " " (length sp) ++ [s_cr] ++ [s_nl]), r3)
         else (StrayBackslash (s_backslash :: repeat " " (length sp) ++ [s_cr]), r2)
       | nil => (StrayBackslash (s_backslash :: repeat " " (length sp) ++ [s_cr]), r2)
       end
     else (StrayBackslash (s_backslash :: repeat " " (length sp)), r1)
   | nil => (StrayBackslash (s_backslash :: repeat " " (length sp)), r1)
   end).
Proof. reflexivity. Qed.

Theorem lex_one_complete e rest g t :
  lexeme U e rest -> elem_text e = g :: t -> lex_one U g (t ++ rest) = (e, rest).
Proof.
  intros L Te. destruct L; cbn [elem_text] in Te.
  - injection Te as <- <-. cbn in H.
    repeat (destruct H as [H|H]; [injection H as <- <-; reflexivity|]). contradiction.
  - injection Te as <- <-. cbn in H.
    repeat (destruct H as [H|H]; [injection H as <- <- <-; reflexivity|]). contradiction.
  - injection Te as <- <-. cbn in H.
    assert (X : forall h r, rest = h :: r -> String.eqb h "=" = false).
    { intros h r ->. cbn in H0. apply String.eqb_neq. congruence. }
    repeat (destruct H as [H|H]; [injection H as <- <- <-; cbn;
      destruct rest as [|h r]; [reflexivity|]; rewrite (X h r eq_refl); reflexivity|]).
    contradiction.
  - injection Te as <- <-.  cbn. destruct rest as [|h r]; [reflexivity|].
    cbn in H. destruct (String.eqb_spec h "/"); [congruence|reflexivity].
  - injection Te as <- <-. cbn [app]. rewrite lex_comment. rewrite span_exact; [reflexivity| |].
    + eapply Forall_impl; [|exact H]. intros a Ha. cbn.
      apply String.eqb_neq in Ha. now rewrite Ha.
    + destruct rest as [|h r]; [exact I|]. cbn in H0.
      destruct (String.eqb_spec h s_nl); [reflexivity|tauto].
  - injection Te as <- <-. rewrite <- app_assoc.
    rewrite lex_quote, span_exact; [reflexivity| |].
    + eapply Forall_impl; [|exact H]. intros a Ha. cbn -[s_quote].
      apply String.eqb_neq in Ha. now rewrite Ha.
    + reflexivity.
  - injection Te as <- <-. rewrite app_nil_r.
    rewrite lex_quote. rewrite <- (app_nil_r body) at 1. rewrite span_exact; [reflexivity| |exact I].
    eapply Forall_impl; [|exact H]. intros a Ha. cbn -[s_quote].
    apply String.eqb_neq in Ha. now rewrite Ha.
  - destruct ds as [|d ds]; [congruence|]. injection Te as <- <-.
    inversion H0 as [|? ? Hd Hds]; subst.
    destruct (special_assoc d (digit_ordinary d Hd))
      as (E1 & E2 & E3 & E4 & E5 & E6 & E7 & E8 & E9).
    unfold lex_one. rewrite E1, E2, E3, E4, E5, E6, E7, E8, E9.
    rewrite (proj2 (digitb_spec d) Hd).
    change (d :: ds ++ rest) with ((d :: ds) ++ rest).
    rewrite span_exact by (apply digits_b || apply next_digits; assumption).
    unfold number_elem. rewrite H3.
    destruct rest as [|dot [|x0 r]]; try reflexivity.
    destruct (String.eqb dot "." && digitb x0) eqn:C; [|reflexivity].
    apply andb_true_iff in C. destruct C as [C1 C2].
    apply String.eqb_eq in C1. exfalso. apply H2. exists x0, r.
    split; [congruence|]. now apply digitb_spec.
  - destruct ds as [|d ds]; [congruence|]. injection Te as <- <-.
    inversion H0 as [|? ? Hd Hds]; subst.
    destruct (special_assoc d (digit_ordinary d Hd))
      as (E1 & E2 & E3 & E4 & E5 & E6 & E7 & E8 & E9).
    unfold lex_one. rewrite E1, E2, E3, E4, E5, E6, E7, E8, E9.
    rewrite (proj2 (digitb_spec d) Hd).
    rewrite <- app_assoc.
    change (d :: ds ++ ("." :: fs) ++ rest) with ((d :: ds) ++ ("." :: fs ++ rest)).
    rewrite span_exact by (apply digits_b || reflexivity; assumption).
    destruct fs as [|f fs]; [congruence|]. inversion H2 as [|? ? Hf Hfs]; subst.
    cbn [app]. rewrite (proj2 (digitb_spec f) Hf). cbn [String.eqb andb].
    change (f :: fs ++ rest) with ((f :: fs) ++ rest).
    rewrite span_exact by (apply digits_b || apply next_digits; assumption).
    unfold number_elem. rewrite <- H4. reflexivity.
  - injection Te as <- <-.
    destruct (special_assoc g0 H) as (E1 & E2 & E3 & E4 & E5 & E6 & E7 & E8 & E9).
    unfold lex_one. rewrite E1, E2, E3, E4, E5, E6, E7, E8, E9.
    rewrite <- digitb_spec in H0.
    replace (digitb g0) with false by now destruct (digitb g0).
    rewrite (proj2 (startsb_spec U g0) H1).
    rewrite span_exact.
    + rewrite (word_kind_unique _ _ H4). reflexivity.
    + eapply Forall_impl; [|exact H2]. intros. now apply continuesb_spec.
    + destruct rest as [|h r]; [exact I|]. cbn [next_not] in H3.
      rewrite <- continuesb_spec in H3. now destruct (continuesb U h).
  - injection Te as <- <-. reflexivity.
  - injection Te as <- <-. reflexivity.
  - injection Te as <- <-. reflexivity.
  - injection Te as <- <-. reflexivity.
  - injection Te as <- <-. rewrite <- !app_assoc.
    rewrite lex_backslash, span_exact; [|apply spaces_b|destruct H as [->| ->]; reflexivity].
    rewrite repeat_length. destruct H as [->| ->]; reflexivity.
  - injection Te as <- <-.
    rewrite lex_backslash, span_exact; [|apply spaces_b|].
    + rewrite repeat_length. destruct rest as [|h r]; [reflexivity|].
      cbn [next_not] in H.
      destruct (String.eqb_spec h s_nl); [tauto|].
      destruct (String.eqb_spec h s_cr); [tauto|]. reflexivity.
    + destruct rest as [|h r]; [exact I|]. cbn [next_not] in H.
      destruct (String.eqb_spec " " h); [subst; tauto|reflexivity].
  - injection Te as <- <-. rewrite <- !app_assoc.
    rewrite lex_backslash, span_exact; [|apply spaces_b|reflexivity].
    rewrite repeat_length. cbn [app].
    change (String.eqb s_cr s_nl) with false.
    change (String.eqb s_cr s_cr) with true. cbv iota.
    destruct rest as [|h r]; [reflexivity|]. cbn [next_not] in H.
    destruct (String.eqb_spec h s_nl); [congruence|reflexivity].
  - injection Te as <- <-.
    destruct (special_assoc g0 H) as (E1 & E2 & E3 & E4 & E5 & E6 & E7 & E8 & E9).
    unfold lex_one. rewrite E1, E2, E3, E4, E5, E6, E7, E8, E9.
    rewrite <- digitb_spec in H0.
    replace (digitb g0) with false by now destruct (digitb g0).
    rewrite <- startsb_spec in H1.
    replace (startsb U g0) with false by now destruct (startsb U g0).
    reflexivity.
Qed.

Theorem lexes_unique gs es : lexes U gs es -> forall es', lexes U gs es' -> es' = es.
Proof.
  induction 1 as [|e rest es L1 L2 IH]; intros es' L'.
  - inversion L' as [|e' rest' es2 L3 L4 E]; subst; [reflexivity|].
    apply lexeme_text_nonempty in L3. destruct (elem_text e'); [congruence|discriminate].
  - inversion L' as [E|e' rest' es2 L3 L4 E]; subst.
    + apply lexeme_text_nonempty in L1. destruct (elem_text e); [congruence|discriminate].
    + destruct (elem_text e) as [|g t] eqn:T1.
      { exfalso. now apply (lexeme_text_nonempty U _ _ L1). }
      destruct (elem_text e') as [|g' t'] eqn:T2.
      { exfalso. now apply (lexeme_text_nonempty U _ _ L3). }
      cbn [app] in E. injection E as -> Et.
      pose proof (lex_one_complete _ _ _ _ L1 T1) as A.
      pose proof (lex_one_complete _ _ _ _ L3 T2) as B.
      rewrite Et, A in B. injection B as <- <-. f_equal. now apply IH.
Qed.
End Unique.
