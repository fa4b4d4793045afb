(** Every text can be cut into lexical elements: an executable lexer, sound for
    [SpecLex.lexes]. *)
From Verif Require Import Base F64 Token Scanner SpecLex StrFacts.

Section Lex.
Variable U : unicode.

Definition digitb (g : string) : bool :=
  existsb (String.eqb g) ["0"; "1"; "2"; "3"; "4"; "5"; "6"; "7"; "8"; "9"].
Definition startsb (g : string) : bool :=
  match first_char g with
  | Some c => u_alphabetic U c || (c =? 95)%N
  | None => false
  end.
Definition continuesb (g : string) : bool :=
  match first_char g with
  | Some c => u_alphanumeric U c || (c =? 95)%N
  | None => false
  end.

Lemma in_existsb g l : existsb (String.eqb g) l = true <-> In g l.
Proof.
  rewrite existsb_exists. split.
  - intros (x & H & E). apply String.eqb_eq in E. now subst.
  - intros H. exists g. split; [assumption|apply String.eqb_refl].
Qed.
Lemma digitb_spec g : digitb g = true <-> digit_cluster g.
Proof. apply in_existsb. Qed.
Lemma startsb_spec g : startsb g = true <-> starts_word U g.
Proof.
  unfold startsb, starts_word. destruct (first_char g) as [c|].
  - rewrite orb_true_iff, N.eqb_eq. split.
    + intros H. eauto.
    + intros (d & E & H). now injection E as ->.
  - split; [discriminate|]. intros (d & E & _). discriminate.
Qed.
Lemma continuesb_spec g : continuesb g = true <-> continues_word U g.
Proof.
  unfold continuesb, continues_word. destruct (first_char g) as [c|].
  - rewrite orb_true_iff, N.eqb_eq. split.
    + intros H. eauto.
    + intros (d & E & H). now injection E as ->.
  - split; [discriminate|]. intros (d & E & _). discriminate.
Qed.

Fixpoint span (p : string -> bool) (l : list string) : list string * list string :=
  match l with
  | nil => (nil, nil)
  | g :: r => if p g then let '(a, b) := span p r in (g :: a, b) else (nil, l)
  end.
Lemma span_spec p l a b :
  span p l = (a, b) ->
  l = a ++ b /\ Forall (fun g => p g = true) a /\
  match b with nil => True | g :: _ => p g = false end.
Proof.
  revert a b. induction l as [|g r IH]; cbn; intros a b E.
  - injection E as <- <-. repeat split; constructor.
  - destruct (p g) eqn:Pg.
    + destruct (span p r) as [a' b'] eqn:S. injection E as <- <-.
      destruct (IH _ _ eq_refl) as (-> & F & N). repeat split; auto.
    + injection E as <- <-. repeat split; auto.
Qed.

Fixpoint assoc {A} (l : list (string * A)) (w : string) : option A :=
  match l with
  | nil => None
  | (k, t) :: r => if String.eqb k w then Some t else assoc r w
  end.
Lemma assoc_some {A} (l : list (string * A)) w t :
  assoc l w = Some t -> In (w, t) l.
Proof.
  induction l as [|[k u] r IH]; cbn; [discriminate|].
  destruct (String.eqb_spec k w) as [->|N].
  - intros [= ->]. now left.
  - intros H. right. auto.
Qed.
Lemma assoc_none {A} (l : list (string * A)) w :
  assoc l w = None <-> ~ In w (map fst l).
Proof.
  induction l as [|[k u] r IH]; cbn; [tauto|].
  destruct (String.eqb_spec k w) as [->|N].
  - split; [discriminate|]. intros H. exfalso. apply H. now left.
  - rewrite IH. tauto.
Qed.

Definition op_table : list (string * (token_type * token_type)) :=
  map (fun p => match p with (g, a, b) => (g, (a, b)) end) eq_operators.
Lemma op_table_in g a b : In (g, (a, b)) op_table -> In (g, a, b) eq_operators.
Proof.
  unfold op_table. rewrite in_map_iff. intros ([[g' a'] b'] & E & H).
  now injection E as -> -> ->.
Qed.

Definition word_kind_of (w : string) : token_type :=
  match assoc reserved w with Some k => k | None => Identifier end.
Lemma word_kind_of_spec w : word_kind w (word_kind_of w).
Proof.
  unfold word_kind_of. destruct (assoc reserved w) eqn:E.
  - apply WReserved. now apply assoc_some.
  - apply WIdentifier. now apply assoc_none.
Qed.

Definition number_elem (text : list string) : elem :=
  Tok Number text None (parse_f64 (sconcat text)).

(** The first element of a non-empty text and the rest. *)
Definition lex_one (g : string) (r : list string) : elem * list string :=
  match assoc punctuation g with
  | Some k => (Tok k [g] None None, r)
  | None =>
  match assoc op_table g with
  | Some (k1, k2) =>
    match r with
    | h :: r' => if String.eqb h "=" then (Tok k2 [g; "="] None None, r')
                 else (Tok k1 [g] None None, r)
    | nil => (Tok k1 [g] None None, r)
    end
  | None =>
    if String.eqb g "/" then
      match r with
      | h :: r' =>
        if String.eqb h "/" then
          let '(b, r'') := span (fun x => negb (String.eqb x s_nl)) r' in
          (Comment ("/" :: "/" :: b), r'')
        else (Tok Slash ["/"] None None, r)
      | nil => (Tok Slash ["/"] None None, r)
      end
    else if String.eqb g s_backslash then
      let '(sp, r1) := span (String.eqb " ") r in
      match r1 with
      | h :: r2 =>
        if String.eqb h s_nl
        then (Continuation (s_backslash :: repeat " " (length sp) ++ nil ++ [s_nl]), r2)
        else if String.eqb h s_cr then
          match r2 with
          | h' :: r3 =>
            if String.eqb h' s_nl
            then (Continuation (s_backslash :: repeat " " (length sp) ++ [s_cr] ++ [s_nl]), r3)
            else (StrayBackslash (s_backslash :: repeat " " (length sp) ++ [s_cr]), r2)
          | nil => (StrayBackslash (s_backslash :: repeat " " (length sp) ++ [s_cr]), r2)
          end
        else (StrayBackslash (s_backslash :: repeat " " (length sp)), r1)
      | nil => (StrayBackslash (s_backslash :: repeat " " (length sp)), r1)
      end
    else if String.eqb g s_tab then (StrayTab, r)
    else if String.eqb g " " then (Space, r)
    else if String.eqb g s_cr then (Return_, r)
    else if String.eqb g s_nl then (Newline, r)
    else if String.eqb g s_quote then
      let '(b, r') := span (fun x => negb (String.eqb x s_quote)) r in
      match r' with
      | nil => (OpenString (s_quote :: b), nil)
      | _ :: r'' => (Tok TString (s_quote :: b ++ [s_quote]) (Some (sconcat b)) None, r'')
      end
    else if digitb g then
      let '(ds, r') := span digitb (g :: r) in
      match r' with
      | dot :: ((d :: _) as r'') =>
        if String.eqb dot "." && digitb d then
          let '(fs, r3) := span digitb r'' in
          (number_elem (ds ++ "." :: fs), r3)
        else (number_elem ds, r')
      | _ => (number_elem ds, r')
      end
    else if startsb g then
      let '(w, r') := span continuesb r in
      (Tok (word_kind_of (sconcat (g :: w))) (g :: w) None None, r')
    else (Stray g, r)
  end
  end.

(** ** Number texts parse *)
Lemma read_digits ds rest dot acc frac cnt :
  Forall digit_cluster ds ->
  exists acc' frac' cnt',
    read_decimal (String.append (sconcat ds) rest) dot acc frac cnt
    = read_decimal rest dot acc' frac' cnt' /\ cnt' = cnt + length ds.
Proof.
  intros H. revert acc frac cnt.
  induction H as [|g ds Hg H IH]; intros; cbn [sconcat String.append].
  - exists acc, frac, cnt. split; [reflexivity|cbn; lia].
  - assert (exists c d, g = String c EmptyString /\ digit_val c = Some d)
      as (c & d & -> & D).
    { destruct Hg as [<-|[<-|[<-|[<-|[<-|[<-|[<-|[<-|[<-|[<-|[]]]]]]]]]]];
        eexists; eexists; (split; [reflexivity|reflexivity]). }
    cbn [String.append read_decimal]. rewrite D.
    destruct (IH (acc * 10 + d)%N (if dot then S frac else frac) (S cnt))
      as (a & f & c' & -> & ->).
    exists a, f, (S cnt + length ds). split; [reflexivity|cbn; lia].
Qed.

Lemma parse_integer ds :
  ds <> nil -> Forall digit_cluster ds -> exists x, parse_f64 (sconcat ds) = Some x.
Proof.
  intros NE H. unfold parse_f64.
  destruct (read_digits ds EmptyString false 0 0 0 H) as (a & f & c & E & C).
  rewrite append_nil_r in E. rewrite E. cbn.
  destruct ds; [congruence|]. cbn in C. subst c. eauto.
Qed.
Lemma parse_decimal ds fs :
  ds <> nil -> Forall digit_cluster ds -> Forall digit_cluster fs ->
  exists x, parse_f64 (sconcat (ds ++ "." :: fs)) = Some x.
Proof.
  intros NE H H'. unfold parse_f64. rewrite sconcat_app. cbn [sconcat].
  destruct (read_digits ds (String.append "." (sconcat fs)) false 0 0 0 H)
    as (a & f & c & E & C).
  rewrite E. cbn [String.append read_decimal]. cbn -[sconcat].
  destruct (read_digits fs EmptyString true a f c H') as (a' & f' & c' & E' & C').
  rewrite append_nil_r in E'. rewrite E'. cbn.
  destruct ds; [congruence|]. cbn in C. subst. cbn. eexists. reflexivity.
Qed.

Lemma forall_bool {A} (p : A -> bool) (P : A -> Prop) l :
  (forall x, p x = true -> P x) -> Forall (fun x => p x = true) l -> Forall P l.
Proof. intros H F. eapply Forall_impl; [|exact F]. auto. Qed.

Lemma not_special g :
  assoc punctuation g = None -> assoc op_table g = None ->
  String.eqb g "/" = false -> String.eqb g s_backslash = false ->
  String.eqb g s_tab = false -> String.eqb g " " = false ->
  String.eqb g s_cr = false -> String.eqb g s_nl = false ->
  String.eqb g s_quote = false -> ~ In g special.
Proof.
  intros A B. rewrite !String.eqb_neq. intros.
  apply assoc_none in A. apply assoc_none in B.
  unfold special. rewrite !in_app_iff. intros [I|[I|I]].
  - contradiction.
  - apply B. exact I.
  - cbn in I. intuition congruence.
Qed.

Lemma span_spaces r a b :
  span (String.eqb " ") r = (a, b) -> a = repeat " " (length a).
Proof.
  intros E. apply span_spec in E. destruct E as (_ & F & _).
  induction F as [|x l Hx F IH]; cbn; [reflexivity|].
  apply String.eqb_eq in Hx. congruence.
Qed.

Theorem lex_one_sound g r e rest :
  lex_one g r = (e, rest) -> g :: r = elem_text e ++ rest /\ lexeme U e rest.
Proof.
  unfold lex_one. intros E.
  destruct (assoc punctuation g) as [k|] eqn:Ap.
  { injection E as <- <-. split; [reflexivity|].
    apply LPunct. now apply assoc_some. }
  destruct (assoc op_table g) as [[k1 k2]|] eqn:Ao.
  { apply assoc_some, op_table_in in Ao.
    destruct r as [|h r'].
    - injection E as <- <-. split; [reflexivity|]. eapply LOp; [exact Ao|exact I].
    - destruct (String.eqb_spec h "=") as [->|N]; injection E as <- <-.
      + split; [reflexivity|]. eapply LOpEq. exact Ao.
      + split; [reflexivity|]. eapply LOp; [exact Ao|]. cbn. congruence. }
  destruct (String.eqb g "/") eqn:Es.
  { apply String.eqb_eq in Es. subst g. destruct r as [|h r'].
    - injection E as <- <-. split; [reflexivity|]. now apply LSlash.
    - destruct (String.eqb_spec h "/") as [->|N].
      + destruct (span _ r') as [b r''] eqn:S. injection E as <- <-.
        apply span_spec in S. destruct S as (-> & F & X).
        split; [reflexivity|]. apply LComment.
        * eapply forall_bool; [|exact F]. intros x H.
          apply negb_true_iff, String.eqb_neq in H. exact H.
        * destruct r'' as [|y ?]; cbn; [exact I|].
          apply negb_false_iff, String.eqb_eq in X. tauto.
      + injection E as <- <-. split; [reflexivity|]. apply LSlash. cbn. congruence. }
  destruct (String.eqb g s_backslash) eqn:Eb.
  { apply String.eqb_eq in Eb. subst g.
    destruct (span (String.eqb " ") r) as [sp r1] eqn:S.
    pose proof (span_spaces _ _ _ S) as Rp.
    apply span_spec in S. destruct S as (Er & F & X).
    rewrite <- Rp in E.
    destruct r1 as [|h r2].
    - injection E as <- <-. split; [cbn; congruence|]. rewrite Rp.
      apply LStrayBackslash. exact I.
    - destruct (String.eqb_spec h s_nl) as [->|N1].
      + injection E as <- <-. split.
        { cbn. rewrite Er, <- app_assoc. reflexivity. }
        rewrite Rp. apply (LContinuation U _ nil). now left.
      + destruct (String.eqb_spec h s_cr) as [->|N2].
        * destruct r2 as [|h' r3].
          -- injection E as <- <-. split.
             { cbn. rewrite Er, app_nil_r. reflexivity. }
             rewrite Rp. apply LStrayBackslashCR. exact I.
          -- destruct (String.eqb_spec h' s_nl) as [->|N3]; injection E as <- <-.
             ++ split.
                { cbn. rewrite Er, <- app_assoc. reflexivity. }
                rewrite Rp. apply (LContinuation U _ [s_cr]). now right.
             ++ split.
                { cbn. rewrite Er, <- app_assoc. reflexivity. }
                rewrite Rp. apply LStrayBackslashCR. cbn. congruence.
        * injection E as <- <-. split; [cbn; congruence|].
          rewrite Rp. apply LStrayBackslash. cbn.
          apply String.eqb_neq in X. intuition congruence. }
  destruct (String.eqb g s_tab) eqn:Et.
  { apply String.eqb_eq in Et. subst. injection E as <- <-.
    split; [reflexivity|constructor]. }
  destruct (String.eqb g " ") eqn:Esp.
  { apply String.eqb_eq in Esp. subst. injection E as <- <-.
    split; [reflexivity|constructor]. }
  destruct (String.eqb g s_cr) eqn:Ecr.
  { apply String.eqb_eq in Ecr. subst. injection E as <- <-.
    split; [reflexivity|constructor]. }
  destruct (String.eqb g s_nl) eqn:Enl.
  { apply String.eqb_eq in Enl. subst. injection E as <- <-.
    split; [reflexivity|constructor]. }
  destruct (String.eqb g s_quote) eqn:Eq.
  { apply String.eqb_eq in Eq. subst.
    destruct (span _ r) as [b r'] eqn:S. apply span_spec in S.
    destruct S as (-> & F & X).
    assert (F' : Forall (fun x => x <> s_quote) b).
    { eapply forall_bool; [|exact F]. intros x H.
      now apply negb_true_iff, String.eqb_neq in H. }
    destruct r' as [|q r''].
    - injection E as <- <-. split; [reflexivity|].
      now apply LOpenString.
    - apply negb_false_iff, String.eqb_eq in X. subst q.
      injection E as <- <-. split.
      + cbn. rewrite <- app_assoc. reflexivity.
      + now apply LString. }
  pose proof (not_special g Ap Ao Es Eb Et Esp Ecr Enl Eq) as NS.
  destruct (digitb g) eqn:Ed.
  { destruct (span digitb (g :: r)) as [ds r'] eqn:S.
    assert (NE : ds <> nil).
    { cbn [span] in S. rewrite Ed in S. destruct (span digitb r).
      injection S as <- _. discriminate. }
    apply span_spec in S. destruct S as (Er & F & X).
    assert (FD : Forall digit_cluster ds).
    { eapply forall_bool; [|exact F]. intros. now apply digitb_spec. }
    assert (XN : next_not digit_cluster r').
    { destruct r'; cbn [next_not]; [exact I|]. rewrite <- digitb_spec. congruence. }
    destruct (parse_integer ds NE FD) as [x Px].
    assert (Plain : ~ (exists d r0, r' = "." :: d :: r0 /\ digit_cluster d) ->
                    lexeme U (number_elem ds) r').
    { intros H. unfold number_elem. rewrite Px. now apply LInteger. }
    destruct r' as [|dot [|d r'']].
    - injection E as <- <-. split; [exact Er|]. apply Plain.
      intros (? & ? & ? & ?). discriminate.
    - injection E as <- <-. split; [exact Er|]. apply Plain.
      intros (? & ? & ? & ?). discriminate.
    - destruct (String.eqb dot "." && digitb d) eqn:C.
      + apply andb_true_iff in C. destruct C as [C1 C2].
        apply String.eqb_eq in C1. subst dot.
        destruct (span digitb (d :: r'')) as [fs r3] eqn:S2.
        assert (NE2 : fs <> nil).
        { cbn [span] in S2. rewrite C2 in S2. destruct (span digitb r'').
          injection S2 as <- _. discriminate. }
        apply span_spec in S2. destruct S2 as (Er2 & F2 & X2).
        assert (FD2 : Forall digit_cluster fs).
        { eapply forall_bool; [|exact F2]. intros. now apply digitb_spec. }
        injection E as <- <-. split.
        * cbn [elem_text number_elem]. rewrite Er, Er2, <- app_assoc. reflexivity.
        * destruct (parse_decimal ds fs NE FD FD2) as [y Py].
          unfold number_elem. rewrite Py. apply LDecimal; auto.
          destruct r3; cbn [next_not]; [exact I|]. rewrite <- digitb_spec. congruence.
      + injection E as <- <-. split; [exact Er|]. apply Plain.
        intros (d' & r0 & E' & D). injection E' as -> -> ->.
        apply digitb_spec in D. rewrite D in C. discriminate. }
  assert (ND : ~ digit_cluster g) by (rewrite <- digitb_spec; congruence).
  destruct (startsb g) eqn:Est.
  { destruct (span continuesb r) as [w r'] eqn:S. apply span_spec in S.
    destruct S as (-> & F & X). injection E as <- <-.
    split; [reflexivity|]. apply LWord; auto.
    - now apply startsb_spec.
    - eapply forall_bool; [|exact F]. intros. now apply continuesb_spec.
    - destruct r'; cbn [next_not]; [exact I|]. rewrite <- continuesb_spec. congruence.
    - apply word_kind_of_spec. }
  injection E as <- <-. split; [reflexivity|]. apply LStray; auto.
  rewrite <- startsb_spec. congruence.
Qed.

Lemma lexeme_text_nonempty e rest : lexeme U e rest -> elem_text e <> nil.
Proof.
  destruct 1; cbn; try discriminate; auto.
  destruct ds; [congruence|discriminate].
Qed.

Fixpoint lex_all (fuel : nat) (gs : list string) : list elem :=
  match fuel, gs with
  | S n, g :: r => let '(e, rest) := lex_one g r in e :: lex_all n rest
  | _, _ => nil
  end.

Theorem lex_all_sound fuel gs :
  length gs <= fuel -> lexes U gs (lex_all fuel gs).
Proof.
  revert gs. induction fuel as [|n IH]; intros gs L.
  - destruct gs; [constructor|cbn in L; lia].
  - destruct gs as [|g r]; [constructor|]. cbn [lex_all].
    destruct (lex_one g r) as [e rest] eqn:E.
    apply lex_one_sound in E. destruct E as (E & H). rewrite E.
    constructor; [assumption|]. apply IH.
    apply lexeme_text_nonempty in H.
    assert (length (g :: r) = length (elem_text e) + length rest)
      by (rewrite E, app_length; reflexivity).
    destruct (elem_text e); [congruence|]. cbn in *. lia.
Qed.

(** Every text can be cut. *)
Corollary lexes_total gs : exists es, lexes U gs es.
Proof. eexists. apply (lex_all_sound (length gs)). lia. Qed.

End Lex.
