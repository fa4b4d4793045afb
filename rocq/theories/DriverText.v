(** Rendered errors determine the errors. *)
From Coq Require Import DecimalString Lia.
From Verif Require Import Base F64 Token Ast Show Driver SpecShow SpecDriver ShowFacts.
Local Open Scope string_scope.

Fixpoint all (P : ascii -> bool) (s : string) : bool :=
  match s with "" => true | String c r => P c && all P r end.
Lemma all_split : forall P p q c d r r', all P p = true -> all P q = true -> P c = false -> P d = false ->
  p ++ String c r = q ++ String d r' -> p = q /\ c = d /\ r = r'.
Proof.
  intros P. induction p as [|a p IH]; destruct q as [|b q]; cbn [append all]; intros c d r r' A B C D E.
  - injection E. auto.
  - injection E as <- _. rewrite C in B. discriminate.
  - injection E as -> _. rewrite D in A. discriminate.
  - apply andb_prop in A, B. injection E as -> E. apply IH in E; try tauto. destruct E as (-> & -> & ->). auto.
Qed.
Definition is_digit (c : ascii) : bool := ((48 <=? N_of_ascii c) && (N_of_ascii c <=? 57))%N.
Lemma decimal_all : forall n, all is_digit (decimal n) = true.
Proof.
  assert (X : forall d, all is_digit (NilEmpty.string_of_uint d) = true) by (induction d; cbn; auto).
  intros n. unfold decimal, NilZero.string_of_uint. destruct (N.to_uint n); try apply X; reflexivity.
Qed.
Lemma position_split : forall l l' c d r r', is_digit c = false -> is_digit d = false ->
  position l ++ String c r = position l' ++ String d r' -> l = l' /\ c = d /\ r = r'.
Proof.
  intros [a b] [a' b'] c d r r' C D E. unfold position in E. cbn [loc_line loc_column] in E. norm.
  apply (all_split is_digit) in E; auto using decimal_all. destruct E as (E1 & _ & E).
  apply (all_split is_digit) in E; auto using decimal_all. destruct E as (E2 & E3 & E).
  apply decimal_inj in E1, E2. subst. auto.
Qed.

(** *** The command line *)
Lemma error_line_position : forall c c' r r', error_line c ++ r = error_line c' ++ r' ->
  c_loc c = c_loc c' /\
  match c_token c, c_token c' with
  | None, None => c_message c ++ s_nl ++ r = c_message c' ++ s_nl ++ r'
  | Some t, Some t' => t ++ "': " ++ c_message c ++ s_nl ++ r = t' ++ "': " ++ c_message c' ++ s_nl ++ r'
  | _, _ => False
  end.
Proof.
  intros [l t m] [l' t' m'] r r' E. unfold error_line in E. cbn [c_loc c_token c_message] in *. norm.
  injection E as E. apply position_split in E; auto. destruct E as (-> & _ & E). split; auto.
  injection E as E. destruct t, t'; norm.
  - injection E as E. exact E.
  - discriminate.
  - discriminate.
  - injection E as E. exact E.
Qed.
Lemma app_cancel_r : forall a b c : string, a ++ c = b ++ c -> a = b.
Proof.
  assert (L : forall a b, slen (a ++ b) = slen a + slen b) by (induction a; cbn; intros; auto).
  induction a as [|x a IH]; destruct b as [|y b]; cbn; intros c E; auto.
  - apply (f_equal slen) in E. cbn in E. rewrite L in E. lia.
  - apply (f_equal slen) in E. cbn in E. rewrite L in E. lia.
  - injection E as -> E. f_equal. eauto.
Qed.
(** The last occurrence of the delimiter *)
Lemma last_delimiter : forall t t' m m', ~ contains "': " m -> ~ contains "': " m' ->
  t ++ "': " ++ m = t' ++ "': " ++ m' -> t = t' /\ m = m'.
Proof.
  assert (M : forall x t m m', ~ contains "': " m -> "': " ++ m = String x (t ++ "': " ++ m') -> False).
  { intros x t m m' H E. destruct t as [|a [|b t]]; cbn in E; try discriminate E. injection E as _ _ _ E.
    apply H. exists t, m'. exact E. }
  induction t as [|a t IH]; destruct t' as [|b t']; intros m m' H H' E.
  - cbn in E. injection E as ->. auto.
  - exfalso. eapply M; [exact H|exact E].
  - exfalso. symmetry in E. eapply M; [exact H'|exact E].
  - cbn [append] in E. injection E as -> E. apply IH in E; auto. destruct E. subst. auto.
Qed.
Lemma error_line_inj : forall c c', ~ contains "': " (c_message c) -> ~ contains "': " (c_message c') ->
  error_line c = error_line c' -> c = c'.
Proof.
  intros c c' H H' E. assert (E2 : error_line c ++ "" = error_line c' ++ "") by congruence.
  apply error_line_position in E2. destruct c as [l t m], c' as [l' t' m']. cbn [c_loc c_token c_message] in *.
  destruct E2 as [-> E2]. rewrite !app_nil_s in E2. destruct t, t'; try contradiction.
  - assert (E3 : (s ++ "': " ++ m) ++ s_nl = (s0 ++ "': " ++ m') ++ s_nl) by (norm; exact E2).
    apply app_cancel_r, last_delimiter in E3; auto. destruct E3. subst. auto.
  - apply app_cancel_r in E2. subst. auto.
Qed.

Lemma error_line_place : forall c c', error_line c = error_line c' ->
  c_loc c = c_loc c' /\ (c_token c = None <-> c_token c' = None).
Proof.
  intros c c' E. assert (E2 : error_line c ++ "" = error_line c' ++ "") by congruence.
  apply error_line_position in E2. destruct E2 as [A B]. split; auto.
  destruct (c_token c), (c_token c'); try contradiction; split; auto; discriminate.
Qed.
Lemma error_line_refuted : ~ (forall c c', error_line c = error_line c' -> c = c').
Proof.
  intros H. specialize (H (mkCause default_loc (Some "a") "b': c") (mkCause default_loc (Some "a': b") "c") eq_refl).
  discriminate H.
Qed.

(** *** JavaScript *)
Definition no_newline (s : string) : bool := all (fun c => negb (Ascii.eqb c c_nl)) s.
Lemma paragraph_code : forall F c c' r r', quotes (f_str F) ->
  error_paragraph F c ++ r = error_paragraph F c' ++ r' ->
  c_loc c = c_loc c' /\ c_token c = c_token c' /\
  c_message c ++ s_nl ++ s_nl ++ r = c_message c' ++ s_nl ++ s_nl ++ r'.
Proof.
  intros F [l t m] [l' t' m'] r r' [Q _] E. unfold error_paragraph in E. cbn [c_loc c_token c_message] in *.
  destruct t as [t|], t' as [t'|]; norm; apply position_split in E; auto; destruct E as (-> & D & E); try discriminate D.
  - injection E as E. apply Q in E. destruct E as (-> & E). injection E as E. auto.
  - injection E as E. auto.
Qed.
Lemma paragraph_inj : forall F c c', quotes (f_str F) -> error_paragraph F c = error_paragraph F c' -> c = c'.
Proof.
  intros F c c' Q E. assert (E2 : error_paragraph F c ++ "" = error_paragraph F c' ++ "") by congruence.
  apply paragraph_code in E2; auto. destruct c, c'. cbn in *. destruct E2 as (-> & -> & E2).
  apply app_cancel_r in E2. congruence.
Qed.
Lemma paragraphs_inj : forall F cs cs', quotes (f_str F) ->
  Forall (fun c => no_newline (c_message c) = true) cs ->
  Forall (fun c => no_newline (c_message c) = true) cs' ->
  cat (map (error_paragraph F) cs) = cat (map (error_paragraph F) cs') -> cs = cs'.
Proof.
  intros F cs cs' Q. revert cs'. induction cs as [|c cs IH]; destruct cs' as [|c' cs']; intros N N' E; auto.
  - exfalso. cbn [map cat] in E. unfold error_paragraph, position in E.
    destruct (decimal (loc_line (c_loc c'))); discriminate E.
  - exfalso. cbn [map cat] in E. unfold error_paragraph, position in E.
    destruct (decimal (loc_line (c_loc c))); discriminate E.
  - cbn [map cat] in E. apply paragraph_code in E; auto. destruct c as [l t m], c' as [l' t' m'].
    cbn [c_loc c_token c_message] in *. destruct E as (-> & -> & E).
    inversion N; inversion N'; subst. cbn [c_message] in *.
    unfold s_nl in E. apply (all_split (fun c => negb (Ascii.eqb c c_nl))) in E; auto.
    destruct E as (-> & _ & E). injection E as E. f_equal. auto.
Qed.
