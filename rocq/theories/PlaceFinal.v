(** Edits of a source that leave the program alone. *)
From Verif Require Import Base F64 Token Ast Scanner Parser Resolver Segment SpecLex SpecLayout SpecScan SpecPlace
  ScanLex ScanUnique ScanProps ScanPairs ScanFinal ScanSpaces Relabel RelabelErrors RelabelParse RelabelResolve TestsParser.

Lemma parse_blank_lines U oc x es y n : sane U -> valid_source (x ++ y) -> lexes U x es -> whole_lines es ->
  same_program (parse U oc (x ++ y)) (parse U oc (x ++ (repeat " " n ++ [s_nl]) ++ y)).
Proof.
  intros Sn V L W. apply (parse_same U Sn); auto.
  - apply Forall_app in V. destruct V as [V1 V2]. apply Forall_app. split; auto.
    rewrite <- app_assoc. apply valid_spaces. now apply valid_nl.
  - now apply insert_blank with es.
Qed.
Lemma parse_comment_text U oc gs gs' a txt txt' c : sane U -> valid_source gs -> valid_source gs' ->
  lexes U gs (a ++ Comment ("/" :: "/" :: txt) :: c) -> Forall (fun g => g <> s_nl) txt' ->
  gs' = text_of a ++ ("/" :: "/" :: txt') ++ text_of c ->
  same_program (parse U oc gs) (parse U oc gs').
Proof.
  intros Sn V V' L F E. apply (parse_same U Sn); auto. eapply (replace_comment U); eauto.
Qed.
Lemma parse_comment_line U oc x es y n txt : sane U -> valid_source (x ++ y) -> valid_source txt ->
  Forall (fun g => g <> s_nl) txt -> lexes U x es -> whole_lines es ->
  is_joined (source_lines es) = false ->
  N.of_nat n = hd 0%N (open_levels (source_lines es)) -> (N.of_nat n <= u16_max)%N ->
  same_program (parse U oc (x ++ y)) (parse U oc (x ++ (repeat " " n ++ "/" :: "/" :: txt ++ [s_nl]) ++ y)).
Proof.
  intros Sn V Vt F L W J N B. apply (parse_same U Sn); auto.
  - apply Forall_app in V. destruct V as [V1 V2]. apply Forall_app. split; auto.
    rewrite <- app_assoc. apply valid_spaces. cbn [app]. constructor; [left; reflexivity|].
    constructor; [left; reflexivity|]. rewrite <- app_assoc. apply Forall_app. split; auto. now apply valid_nl.
  - now apply insert_comment with es.
Qed.
Lemma parse_spaces U oc gs a k text str num b n : sane U -> u_alphanumeric U 32%N = false -> valid_source gs ->
  lexes U gs (a ++ Tok k text str num :: b) -> spaceable k b ->
  same_program (parse U oc gs) (parse U oc (text_of a ++ text ++ repeat " " n ++ text_of b)).
Proof.
  intros Sn SP V L S. assert (E := lexes_text _ _ _ L). rewrite E in *.
  assert (E' : text_of a ++ text ++ repeat " " n ++ text_of b
               = text_of (a ++ Tok k text str num :: repeat Space n ++ b)).
  { rewrite text_of_app. cbn [text_of flat_map elem_text]. fold (text_of (repeat Space n ++ b)).
    now rewrite text_of_app, text_spaces. }
  rewrite E'. apply (parse_same U Sn); auto.
  - rewrite <- E'. rewrite text_of_app in V. cbn [text_of flat_map elem_text] in V.
    apply Forall_app in V. destruct V as [V1 V]. apply Forall_app in V. destruct V as [V2 V3].
    apply Forall_app. split; auto. apply Forall_app. split; auto. now apply valid_spaces.
  - now apply insert_spaces.
Qed.
Lemma spaces_refuted :
  ~ (forall U oc gs a k text str num b, sane U -> u_alphanumeric U 32%N = false -> valid_source gs ->
     lexes U gs (a ++ Tok k text str num :: b) ->
     same_program (parse U oc gs) (parse U oc (text_of a ++ text ++ [" "] ++ text_of b))).
Proof.
  intros H. specialize (H sample_unicode true (segment (String.append "f(1)" s_nl)) nil Identifier ["f"] None None
    (tl (elements (String.append "f(1)" s_nl)))).
  assert (X : same_program (parse sample_unicode true (segment (String.append "f(1)" s_nl)))
                           (parse sample_unicode true (segment (String.append "f (1)" s_nl)))).
  { apply H.
    - exact sample_sane.
    - reflexivity.
    - apply check_valid. vm_compute. reflexivity.
    - apply elements_lex. }
  vm_compute in X. discriminate X.
Qed.
