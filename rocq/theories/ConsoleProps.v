(** Streams that fail: nothing else changes. *)
From Verif Require Import Base F64 Token Ast Scanner Parser Resolver Show Driver StrFacts SpecLex SpecScan SpecDriver
  DriverFacts DriverProps SpecConsole Console.
From Coq Require Import Lia.
Local Open Scope string_scope.

Definition left (room : option nat) (s : string) : option nat :=
  match room with None => None | Some n => Some (n - slen s) end.
Definition stopped (ro re : option nat) (o e : string) (p : process) : Prop :=
  begins (p_out p) o /\ begins (p_err p) e /\ ~ (fits ro o /\ fits re e) /\
  (full ro (p_out p) \/ full re (p_err p)) /\ exists w, p_end p = Aborted w.
Definition tracks (ro re : option nat) (o e : string) (w : written) : Prop :=
  match w with
  | Going c => c = mkConsole o e (left ro o) (left re e) /\ fits ro o /\ fits re e
  | Stopped p => stopped ro re o e p
  end.
Lemma begins_more a b c : begins a b -> begins a (b ++ c).
Proof. intros (r & ->). exists (r ++ c). now rewrite append_assoc_s. Qed.
Lemma fits_less room s t : fits room (s ++ t) -> fits room s.
Proof. destruct room; cbn; auto. rewrite slen_append. lia. Qed.
Lemma begins_refl s : begins s s.
Proof. exists "". now rewrite append_nil_r. Qed.
Lemma stopped_more ro re o e p s t : stopped ro re o e p -> stopped ro re (o ++ s) (e ++ t) p.
Proof.
  intros (A & B & C & D & E). repeat split; auto using begins_more.
  intros [X Y]. apply C. eauto using fits_less.
Qed.
Lemma substring_begins s : forall n, n <= slen s -> begins (substring 0 n s) s /\ slen (substring 0 n s) = n.
Proof.
  induction s as [|a s IH]; intros n L; cbn in *.
  - assert (n = 0) as -> by lia. split; auto. now exists "".
  - destruct n as [|n]; cbn; [split; auto; now eexists|]. destruct (IH n) as [(r & Q) E]; [lia|]. split; [|lia].
    exists r. cbn. now rewrite <- Q.
Qed.
Lemma take_cases ro o s : fits ro o ->
  (fits ro (o ++ s) /\ take (left ro o) s = (s, Some (left ro (o ++ s)))) \/
  (~ fits ro (o ++ s) /\ exists t, take (left ro o) s = (t, None) /\ begins (o ++ t) (o ++ s) /\ full ro (o ++ t)).
Proof.
  destruct ro as [n|]; cbn; intros X; [|left; auto]. rewrite slen_append.
  destruct (Nat.leb_spec (slen s) (n - slen o)) as [L|L].
  - left. split; [lia|]. do 3 f_equal. lia.
  - right. split; [lia|]. eexists. split; [reflexivity|].
    destruct (substring_begins s (n - slen o)) as [(r & Q) E]; [lia|].
    split; [exists r; now rewrite <- append_assoc_s, <- Q|]. rewrite slen_append. lia.
Qed.
Lemma tracks_out ro re o e w s : tracks ro re o e w -> tracks ro re (o ++ s) e (then_ w (print_out s)).
Proof.
  intros T. destruct w as [c|p]; cbn [then_ tracks] in *.
  - destruct T as (-> & X & Y). unfold print_out. cbn.
    destruct (take_cases ro o s X) as [[A ->]|(A & t & -> & B & C)]; [now repeat split|].
    repeat split; cbn; auto using begins_refl; [tauto|eauto].
  - rewrite <- (append_nil_r e). now apply stopped_more.
Qed.
Lemma tracks_err ro re o e w s : tracks ro re o e w -> tracks ro re o (e ++ s) (then_ w (print_err s)).
Proof.
  intros T. destruct w as [c|p]; cbn [then_ tracks] in *.
  - destruct T as (-> & X & Y). unfold print_err. cbn.
    destruct (take_cases re e s Y) as [[A ->]|(A & t & -> & B & C)]; [now repeat split|].
    repeat split; cbn; auto using begins_refl; [tauto|eauto].
  - rewrite <- (append_nil_r o). now apply stopped_more.
Qed.
Section Drive.
Variables (U : unicode) (oc : bool) (F : formats) (ro re : option nat).
Lemma tracks_causes cs : forall o e w, tracks ro re o e w ->
  tracks ro re o (e ++ cat (map print_parse_error cs)) (then_ w (print_causes cs)).
Proof.
  induction cs as [|c cs IH]; intros o e w T; cbn [map cat print_causes].
  - rewrite append_nil_r. now destruct w.
  - rewrite append_assoc_s. apply (tracks_err _ _ _ _ _ (print_parse_error c)) in T. apply IH in T.
    destruct w; exact T.
Qed.
Lemma tracks_result r o e w : tracks ro re o e w ->
  tracks ro re (o ++ fst (print_result F r)) (e ++ snd (print_result F r)) (then_ w (print_result_on F r)).
Proof.
  intros T. destruct r as [l|cs]; cbn; rewrite append_nil_r; [now apply tracks_out|now apply tracks_causes].
Qed.
Definition empty_console : console := mkConsole "" "" ro re.
Lemma tracks_start : tracks ro re "" "" (Going empty_console).
Proof.
  cbn. unfold empty_console. assert (L : forall r, left r "" = r) by (intros [n|]; cbn; auto; now destruct n).
  rewrite !L. repeat split; [destruct ro|destruct re]; cbn; lia.
Qed.

Definition same_or_stopped (p q : process) : Prop :=
  (fits ro (p_out p) /\ fits re (p_err p) /\ q = p) \/ stopped ro re (p_out p) (p_err p) q.
Lemma ended_cases o e x w : tracks ro re o e w -> same_or_stopped (mkProcess o e x) (ended x w).
Proof.
  intros T. destruct w as [c|p]; cbn in *; [left|right; exact T]. destruct T as (-> & X & Y). auto.
Qed.
Lemma file_cases name f : same_or_stopped (main_file U oc F name f) (file_on U oc F empty_console name f).
Proof.
  assert (E : forall x, same_or_stopped (mkProcess "" "" x) (mkProcess "" "" x)).
  { intros x. left. destruct ro, re; cbn; repeat split; lia. }
  unfold main_file, file_on. destruct f as [| |gs]; try apply E.
  destruct (olet s <- resolver_new ;; run U oc s gs false) as [[r s]| | |]; try apply E.
  destruct (print_result F r) as [out err] eqn:Q.
  assert (T := tracks_result r _ _ _ tracks_start). rewrite Q in T. cbn [then_ fst snd] in T.
  apply ended_cases. exact T.
Qed.

Definition state_out (st : repl_state) : string := match st with Reading r => r_out r | Finished p => p_out p end.
Definition state_err (st : repl_state) : string := match st with Reading r => r_err r | Finished p => p_err p end.
Definition state_on (st : repl_state) : session :=
  match st with
  | Reading r => Waiting (mkConsole (r_out r) (r_err r) (left ro (r_out r)) (left re (r_err r))) (r_resolver r)
  | Finished p => Over p
  end.
Definition follows_state (st : repl_state) (s : session) : Prop :=
  (fits ro (state_out st) /\ fits re (state_err st) /\ s = state_on st) \/
  exists p, s = Over p /\ stopped ro re (state_out st) (state_err st) p.
Lemma prompt_cases o e w s : tracks ro re o e w -> follows_state (Reading (mkReading (o ++ prompt) e s)) (prompt_on s w).
Proof.
  intros T. apply (tracks_out _ _ _ _ _ prompt) in T. unfold prompt_on. destruct (then_ w (print_out prompt)) as [c|p]; cbn in *.
  - destruct T as (-> & X & Y). left. auto.
  - right. eauto.
Qed.
Lemma start_cases : follows_state repl_start (session_start empty_console).
Proof. unfold repl_start, session_start. destruct resolver_new; try apply (prompt_cases _ _ _ _ tracks_start); left; destruct ro, re; cbn; repeat split; lia. Qed.
Lemma step_cases st s i : follows_state st s -> follows_state (repl_step U oc F st i) (session_step U oc F s i).
Proof.
  intros [(X & Y & ->)|(p & -> & T)].
  - destruct st as [[o e rs]|p]; cbn [repl_step session_step state_on r_out r_err r_resolver state_out state_err] in *; [|left; auto].
    assert (T : tracks ro re o e (Going (mkConsole o e (left ro o) (left re e)))) by (cbn; auto).
    unfold repl_read. cbn [r_out r_err r_resolver]. destruct i as [gs|x].
    + destruct (run U oc rs gs true) as [[res s]|w| |].
      * destruct (print_result F res) as [out err] eqn:Q. apply (tracks_result res) in T. rewrite Q in T.
        cbn [then_ fst snd] in T. rewrite append_assoc_s. now apply prompt_cases.
      * left. auto.
      * left. auto.
      * left. auto.
    + apply (tracks_out _ _ _ _ _ ("Error reading stdin: " ++ x ++ s_nl)) in T. apply (ended_cases _ _ (Exited 0)) in T.
      destruct T as [(A & B & Q)|T]; [left|right; eexists; split; [reflexivity|exact T]]. cbn. cbn in A, B. repeat split; auto. f_equal. exact Q.
  - right. exists p. split; auto. destruct st as [[o e rs]|q]; [|exact T]. cbn [repl_step repl_read state_out state_err r_out r_err] in *.
    assert (K : stopped ro re (o ++ "") (e ++ "") p) by (now apply stopped_more). rewrite !append_nil_r in K.
    destruct i as [gs|x]; cbn [repl_read r_out r_err r_resolver].
    + destruct (run U oc rs gs true) as [[res s]|w| |]; try exact K.
      destruct (print_result F res) as [out err]. now apply stopped_more.
    + cbn. rewrite <- (append_nil_r e). now apply stopped_more.
Qed.
Lemma session_cases l : follows_state (repl U oc F l) (session_on U oc F empty_console l).
Proof.
  unfold repl, session_on. generalize start_cases. generalize repl_start (session_start empty_console).
  induction l as [|i l IH]; intros st s H; cbn [fold_left]; auto. apply IH. now apply step_cases.
Qed.
Lemma over_stays l p : fold_left (session_step U oc F) l (Over p) = Over p.
Proof. induction l; auto. Qed.
End Drive.
Lemma times_length n s : slen (times n s) = n * slen s.
Proof. induction n; cbn; auto. rewrite slen_append. lia. Qed.

Lemma exits U oc F ro re name f n : p_end (file_on U oc F (mkConsole "" "" ro re) name f) = Exited n ->
  file_on U oc F (mkConsole "" "" ro re) name f = main_file U oc F name f.
Proof.
  intros E. destruct (file_cases U oc F ro re name f) as [(_ & _ & Q)|(_ & _ & _ & _ & w & Q)]; auto.
  unfold empty_console in Q. congruence.
Qed.
Lemma eof_ends U oc F n re l : exists k p, session_on U oc F (mkConsole "" "" (Some n) re) (l ++ repeat (Line nil) k) = Over p.
Proof.
  destruct (repl U oc F l) as [r|p] eqn:E.
  - exists (S n). destruct (session_cases U oc F (Some n) re (l ++ repeat (Line nil) (S n))) as [(X & _)|(p & H & _)]; [|eauto].
    exfalso. rewrite (repl_eof U oc F (S n) l r E) in X. cbn [state_out r_out fits] in X.
    rewrite slen_append, times_length in X. cbn in X. lia.
  - exists 0. cbn [repeat]. rewrite app_nil_r. destruct (session_cases U oc F (Some n) re l) as [(_ & _ & H)|(q & H & _)]; [|eauto].
    rewrite E in H. eauto.
Qed.
Lemma file_fits U oc F ro re name f : fits ro (p_out (main_file U oc F name f)) -> fits re (p_err (main_file U oc F name f)) ->
  file_on U oc F (mkConsole "" "" ro re) name f = main_file U oc F name f.
Proof. intros X Y. destruct (file_cases U oc F ro re name f) as [(_ & _ & Q)|(_ & _ & N & _)]; tauto. Qed.
Lemma file_stops U oc F ro re name f :
  ~ (fits ro (p_out (main_file U oc F name f)) /\ fits re (p_err (main_file U oc F name f))) ->
  let p := file_on U oc F (mkConsole "" "" ro re) name f in
  begins (p_out p) (p_out (main_file U oc F name f)) /\ begins (p_err p) (p_err (main_file U oc F name f)) /\
  (full ro (p_out p) \/ full re (p_err p)) /\ exists w, p_end p = Aborted w.
Proof. intros N. destruct (file_cases U oc F ro re name f) as [(X & Y & _)|(A & B & _ & D & E)]; [tauto|]. repeat split; auto. Qed.
Lemma session_fits U oc F ro re l : fits ro (state_out (repl U oc F l)) -> fits re (state_err (repl U oc F l)) ->
  match repl U oc F l with
  | Finished p => session_on U oc F (mkConsole "" "" ro re) l = Over p
  | Reading r => exists ro' re',
      session_on U oc F (mkConsole "" "" ro re) l = Waiting (mkConsole (r_out r) (r_err r) ro' re') (r_resolver r)
  end.
Proof.
  intros X Y. destruct (session_cases U oc F ro re l) as [(_ & _ & H)|(p & _ & _ & _ & N & _)]; [|tauto].
  destruct (repl U oc F l); cbn [state_on] in H; eauto.
Qed.
Lemma session_stops U oc F ro re l :
  ~ (fits ro (state_out (repl U oc F l)) /\ fits re (state_err (repl U oc F l))) ->
  exists p, session_on U oc F (mkConsole "" "" ro re) l = Over p /\
  begins (p_out p) (state_out (repl U oc F l)) /\ begins (p_err p) (state_err (repl U oc F l)) /\
  (full ro (p_out p) \/ full re (p_err p)) /\ exists w, p_end p = Aborted w.
Proof.
  intros N. destruct (session_cases U oc F ro re l) as [(X & Y & _)|(p & H & A & B & _ & D & E)]; [tauto|]. exists p. repeat split; auto.
Qed.

(** ** The status *)
Lemma fits_nothing r : fits r "".
Proof. destruct r; cbn; auto. lia. Qed.
Lemma status_0_on U oc F ro re name gs : sane U -> valid_source gs ->
  (p_end (file_on U oc F (mkConsole "" "" ro re) name (Contents gs)) = Exited 0 <->
   exists l, resolves U oc gs l /\ fits ro (debug_program F l ++ s_nl)).
Proof.
  intros Sn V. assert (X := file_cases U oc F ro re name (Contents gs)). unfold empty_console in X.
  destruct (file_fate U oc F Sn name gs V) as [(l & R & P)|[(cs & R & N & P)|[(w & R & P)|(R & P)]]].
  - rewrite P in X. cbn [p_out p_err] in X. split.
    + intros E. exists l. split; auto. destruct X as [(A & _)|(_ & _ & _ & _ & w & Q)]; [auto|congruence].
    + intros (l' & R' & A). assert (l' = l) as -> by (destruct R as (? & ? & ?), R' as (? & ? & ?); congruence).
      destruct X as [(_ & _ & ->)|(_ & _ & N & _)]; auto. exfalso. apply N. auto using fits_nothing.
  - split.
    + intros E. exfalso. destruct X as [(_ & _ & Q)|(_ & _ & _ & _ & w & Q)]; [|congruence]. rewrite Q, P in E. discriminate.
    + intros (l & R' & _). exfalso. assert (Z : p_end (main_file U oc F name (Contents gs)) = Exited 0) by (apply (status_0 U oc F Sn name gs V); eauto).
      rewrite P in Z. discriminate.
  - split.
    + intros E. exfalso. destruct X as [(_ & _ & Q)|(_ & _ & _ & _ & w' & Q)]; [|congruence]. rewrite Q, P in E. discriminate.
    + intros (l & R' & _). exfalso. assert (Z : p_end (main_file U oc F name (Contents gs)) = Exited 0) by (apply (status_0 U oc F Sn name gs V); eauto).
      rewrite P in Z. discriminate.
  - split.
    + intros E. exfalso. destruct X as [(_ & _ & Q)|(_ & _ & _ & _ & w' & Q)]; [|congruence]. rewrite Q, P in E. discriminate.
    + intros (l & R' & _). exfalso. assert (Z : p_end (main_file U oc F name (Contents gs)) = Exited 0) by (apply (status_0 U oc F Sn name gs V); eauto).
      rewrite P in Z. discriminate.
Qed.
Lemma status_65_on U oc F ro re name gs : sane U -> valid_source gs ->
  (p_end (file_on U oc F (mkConsole "" "" ro re) name (Contents gs)) = Exited 65 <->
   exists cs, fails U oc gs cs /\ fits re (cat (map error_line cs))).
Proof.
  intros Sn V. assert (X := file_cases U oc F ro re name (Contents gs)). unfold empty_console in X.
  assert (K := status_65 U oc F Sn name gs V).
  destruct (file_fate U oc F Sn name gs V) as [(l & R & P)|[(cs & R & N & P)|[(w & R & P)|(R & P)]]].
  2:{ rewrite P in X. cbn [p_out p_err] in X. split.
    - intros E. exists cs. split; auto. destruct X as [(_ & A & _)|(_ & _ & _ & _ & w & Q)]; [auto|congruence].
    - intros (cs' & R' & A). assert (cs' = cs) as ->.
      { destruct R as [R|(? & R & R1)], R' as [R'|(? & R' & R1')]; congruence. }
      destruct X as [(_ & _ & ->)|(_ & _ & M & _)]; auto. exfalso. apply M. auto using fits_nothing. }
  all: split; [intros E; exfalso; destruct X as [(_ & _ & Q)|(_ & _ & _ & _ & w' & Q)]; [|congruence]; rewrite Q, P in E; discriminate|].
  all: intros (cs & R' & _); exfalso; assert (Z := proj2 K (ex_intro _ cs R')); rewrite P in Z; discriminate.
Qed.

(** ** [main] *)
Lemma main_choice U oc F c name f l :
  (name = "" -> main U oc F c name f l = session_on U oc F c l) /\
  (name <> "" -> main U oc F c name f l = Over (file_on U oc F c name f)).
Proof. split; intros H; unfold main; [now subst|now apply String.eqb_neq in H as ->]. Qed.
