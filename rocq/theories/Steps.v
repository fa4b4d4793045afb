(** Two runs of the scanner on texts that begin alike do the same as long as at least two clusters of the common part are
    left. *)
From Verif Require Import Base F64 Token Ast Scanner SpecSteps.
From Coq Require Import Lia.
Local Open Scope string_scope.

Lemma get_app A B i : i < slen A -> String.get i (A ++ B) = String.get i A.
Proof.
  revert i. induction A as [|c A IH]; cbn; intros i L; [lia|]. destruct i; auto. apply IH. lia.
Qed.
Lemma substring_app A B : forall i n, i + n <= slen A -> String.substring i n (A ++ B) = String.substring i n A.
Proof.
  induction A as [|c A IH]; cbn; intros i n L.
  - assert (i = 0) as -> by lia. assert (n = 0) as -> by lia. destruct B; reflexivity.
  - destruct i as [|i]; [destruct n as [|n]; [reflexivity|]; rewrite IH; [reflexivity|lia]|apply IH; lia].
Qed.
Lemma len_app A B : slen (A ++ B) = slen A + slen B.
Proof. induction A; cbn; auto. Qed.
Lemma boundary_app A B i : i < slen A -> is_char_boundary (A ++ B) i = is_char_boundary A i.
Proof.
  intros L. unfold is_char_boundary. destruct (Nat.eqb i 0); auto. rewrite get_app by exact L.
  destruct (String.get i A) eqn:G; auto. exfalso. clear B. revert i L G.
  induction A as [|c A IH]; cbn; intros i L; [lia|]. destruct i; [discriminate|]. apply IH. lia.
Qed.
Lemma slice_app A B a b : b < slen A -> slice (A ++ B) a b = slice A a b.
Proof.
  intros L. unfold slice. destruct (Nat.leb_spec a b) as [La|La]; [|reflexivity].
  rewrite (boundary_app A B b L), (boundary_app A B a) by lia. rewrite substring_app by lia. rewrite len_app.
  destruct (Nat.leb_spec b (slen A + slen B)) as [Q|Q]; [|lia].
  destruct (Nat.leb_spec b (slen A)) as [Q2|Q2]; [|lia]. reflexivity.
Qed.

Section Two.
Variable U : unicode.
Variables A B1 B2 : string.
Variables T1 T2 : list (nat * string).
Notation K := (length T1 + 2).

Definition R (s t : scanner) : Prop := exists Y,
  sc_source s = A ++ B1 /\ sc_source t = A ++ B2 /\ sc_gi s = (Y ++ T1)%list /\ sc_gi t = (Y ++ T2)%list /\
  Forall (fun q => fst q < slen A) Y /\ sc_current s < slen A /\ same_so_far s t.
(** Nothing is said once fewer than two clusters of the common part are left. *)
Definition Rw (s t : scanner) : Prop := K <= unread s -> R s t.

Definition sim {B} (st : B -> scanner) (RB : B -> B -> Prop) (s : scanner) (x y : outcome B) : Prop :=
  match x with
  | Done b => unread (st b) <= unread s /\ (K <= unread (st b) -> exists b', y = Done b' /\ RB b b')
  | _ => True
  end.
Definition sim1 := sim (fun s : scanner => s) R.
Definition st2 (p : scanner * bool) := fst p.
Definition R2 (p q : scanner * bool) := R (fst p) (fst q) /\ snd p = snd q.
Definition sim2 := sim st2 R2.
Definition st3 (p : scanner * bool * bool) := fst (fst p).
Definition R3 (p q : scanner * bool * bool) := R (fst (fst p)) (fst (fst q)) /\ snd (fst p) = snd (fst q) /\ snd p = snd q.
Definition sim3 := sim st3 R3.

Lemma sim_bind {B C} (sb : B -> scanner) RB (sc : C -> scanner) RC s x y h k : sim sb RB s x y ->
  (forall b b', (K <= unread (sb b) -> RB b b') -> sim sc RC (sb b) (h b) (k b')) -> sim sc RC s (obind x h) (obind y k).
Proof.
  intros X H. unfold sim in *. destruct x as [b| | |]; cbn [obind]; auto. destruct X as [L X].
  destruct (Nat.lt_ge_cases (unread (sb b)) K) as [Q|Q].
  - specialize (H b b ltac:(lia)). destruct (h b); auto. destruct H as [H _]. split; [lia|]. lia.
  - destruct (X Q) as (b' & -> & P). cbn [obind]. specialize (H b b' ltac:(auto)). destruct (h b); auto. destruct H as [H1 H2].
    split; [lia|exact H2].
Qed.
Lemma sim_small {B} (sb : B -> scanner) RB s x y y' : unread s < K -> sim sb RB s x y -> sim sb RB s x y'.
Proof. intros L. unfold sim. destruct x; auto. intros [H _]. split; [exact H|]. lia. Qed.
Lemma sim_done s r t : unread r <= unread s -> Rw r t -> sim1 s (Done r) (Done t).
Proof. intros L H. unfold sim1, sim. split; auto. intros Q. eauto. Qed.
Lemma sim_done2 s r t b : unread r <= unread s -> Rw r t -> sim2 s (Done (r, b)) (Done (t, b)).
Proof. intros L H. unfold sim2, sim. split; auto. intros Q. eexists. split; [reflexivity|]. split; auto. Qed.
Lemma sim_done3 s r t b c : unread r <= unread s -> Rw r t -> sim3 s (Done (r, b, c)) (Done (t, b, c)).
Proof. intros L H. unfold sim3, sim. split; auto. intros Q. eexists. split; [reflexivity|]. repeat split; auto. Qed.
Lemma sim_start {B} (sb : B -> scanner) RB s s' x y : unread s' <= unread s -> sim sb RB s' x y -> sim sb RB s x y.
Proof. intros L. unfold sim. destruct x; auto. intros [H1 H2]. split; [lia|auto]. Qed.

(** ** Fields *)
Ltac fields H :=
  destruct H as (Y & S1 & S2 & G1 & G2 & F & Cu & E); unfold same_so_far in E;
  destruct E as (E1 & E2 & E3 & E4 & E5 & E6 & E7 & E8 & E9 & E10 & E11 & E12 & E13 & E14 & E15).
Ltac setter := intros H Q; specialize (H Q); fields H;
  lazymatch goal with W : sc_gi _ = (?Y ++ T1)%list |- _ => exists Y end; unfold same_so_far; cbn; repeat split; auto; congruence.
Lemma w_tokens v s t : Rw s t -> Rw (set_tokens v s) (set_tokens v t). Proof. setter. Qed.
Lemma w_errors v s t : Rw s t -> Rw (set_errors v s) (set_errors v t). Proof. setter. Qed.
Lemma w_indentation v s t : Rw s t -> Rw (set_indentation v s) (set_indentation v t). Proof. setter. Qed.
Lemma w_start v s t : Rw s t -> Rw (set_start v s) (set_start v t). Proof. setter. Qed.
Lemma w_line v s t : Rw s t -> Rw (set_line v s) (set_line v t). Proof. setter. Qed.
Lemma w_column v s t : Rw s t -> Rw (set_column v s) (set_column v t). Proof. setter. Qed.
Lemma w_start_column v s t : Rw s t -> Rw (set_start_column v s) (set_start_column v t). Proof. setter. Qed.
Lemma w_bol_spaces v s t : Rw s t -> Rw (set_bol_spaces v s) (set_bol_spaces v t). Proof. setter. Qed.
Lemma w_is_bol v s t : Rw s t -> Rw (set_is_bol v s) (set_is_bol v t). Proof. setter. Qed.
Lemma w_only_comment v s t : Rw s t -> Rw (set_only_comment v s) (set_only_comment v t). Proof. setter. Qed.
Lemma w_is_cont v s t : Rw s t -> Rw (set_is_cont v s) (set_is_cont v t). Proof. setter. Qed.
Lemma w_follow_cont v s t : Rw s t -> Rw (set_follow_cont v s) (set_follow_cont v t). Proof. setter. Qed.
Lemma w_abutting v s t : Rw s t -> Rw (set_abutting v s) (set_abutting v t). Proof. setter. Qed.

(** With two clusters left the next two are the same. *)
Lemma two_left s t : R s t -> K <= unread s -> exists i g j h Y,
  sc_gi s = (i, g) :: (j, h) :: (Y ++ T1)%list /\ sc_gi t = (i, g) :: (j, h) :: (Y ++ T2)%list /\ i < slen A /\ j < slen A /\
  Forall (fun q => fst q < slen A) Y.
Proof.
  intros H Q. fields H. unfold unread in Q. rewrite G1, app_length in Q.
  destruct Y as [|[i g] [|[j h] Y]]; cbn in Q; try lia. exists i, g, j, h, Y. inversion F as [|? ? F1 F']. inversion F' as [|? ? F2 F3].
  cbn in F1, F2. auto.
Qed.
Lemma peek_same s t : R s t -> K <= unread s -> peek_grapheme s = peek_grapheme t /\ peek_index s = peek_index t /\
  peek_next_grapheme s = peek_next_grapheme t /\ peek_index s < slen A.
Proof.
  intros H Q. destruct (two_left s t H Q) as (i & g & j & h & Y & P1 & P2 & L & _).
  unfold peek_grapheme, peek_index, peek_next_grapheme. rewrite P1, P2. auto.
Qed.

(** ** Reading *)
Lemma adv_less s : unread (adv s) <= unread s.
Proof. unfold adv, advance, unread. cbn. destruct (sc_gi s) as [|[i g] r] eqn:G; cbn; [rewrite G|]; cbn; lia. Qed.
Lemma adv_same s t : Rw s t -> Rw (adv s) (adv t).
Proof.
  intros H Q. pose proof (adv_less s) as L. specialize (H ltac:(lia)).
  destruct (two_left s t H ltac:(lia)) as (i & g & j & h & Z & P1 & P2 & Li & Lj & F0).
  fields H. unfold adv, advance. cbn. rewrite P1, P2. cbn. exists ((j, h) :: Z). unfold same_so_far. cbn. repeat split; auto; congruence.
Qed.
Lemma while_less p : forall l s, unread (advance_while p l s) <= unread s.
Proof.
  induction l as [|[i g] r IH]; intros s; cbn; auto. destruct (p g); auto. specialize (IH (adv s)). pose proof (adv_less s). lia.
Qed.
Lemma adv_tail s i g r : sc_gi s = (i, g) :: r -> sc_gi (adv s) = r.
Proof. intros G. unfold adv, advance. cbn. rewrite G. reflexivity. Qed.
Lemma while_same p : forall n s t, unread s <= n -> Rw s t -> Rw (advance_while p (sc_gi s) s) (advance_while p (sc_gi t) t).
Proof.
  induction n as [|n IH]; intros s t L H Q; pose proof (while_less p (sc_gi s) s) as Ls.
  - exfalso. lia.
  - assert (Q0 : K <= unread s) by lia. specialize (H Q0). assert (H0 := H).
    destruct (two_left s t H Q0) as (i & g & j & h & Z & P1 & P2 & _).
    rewrite P1, P2 in *. cbn [advance_while] in *. destruct (p g); [|exact H].
    pose proof (adv_tail s _ _ _ P1) as W1. pose proof (adv_tail t _ _ _ P2) as W2.
    assert (Le : unread (adv s) <= n) by (unfold unread in *; rewrite W1; rewrite P1 in L; cbn in *; lia).
    pose proof (IH (adv s) (adv t) Le (adv_same s t (fun _ => H0))) as G. rewrite W1, W2 in G. exact (G Q).
Qed.
Lemma string_less : forall l s, unread (string_loop l s) <= unread s.
Proof.
  induction l as [|[i g] r IH]; intros s; cbn [string_loop]; [apply adv_less|]. destruct (String.eqb g s_quote); auto.
  cbv zeta. eapply Nat.le_trans; [apply IH|]. eapply Nat.le_trans; [apply adv_less|]. destruct (String.eqb g s_nl); auto.
Qed.
Lemma string_same : forall n s t, unread s <= n -> Rw s t -> Rw (string_loop (sc_gi s) s) (string_loop (sc_gi t) t).
Proof.
  induction n as [|n IH]; intros s t L H Q; pose proof (string_less (sc_gi s) s) as Ls.
  - exfalso. lia.
  - assert (Q0 : K <= unread s) by lia. specialize (H Q0). assert (H0 := H).
    destruct (two_left s t H Q0) as (i & g & j & h & Z & P1 & P2 & _).
    rewrite P1, P2 in *. cbn [string_loop] in *. destruct (String.eqb g s_quote); [exact H|]. cbv zeta in *.
    assert (X : exists s1 t1, (if String.eqb g s_nl then set_column 0 (set_line (sat_succ32 (sc_line s)) s) else s) = s1 /\
      (if String.eqb g s_nl then set_column 0 (set_line (sat_succ32 (sc_line t)) t) else t) = t1 /\ Rw s1 t1 /\
      sc_gi s1 = sc_gi s /\ sc_gi t1 = sc_gi t).
    { destruct (String.eqb g s_nl).
      - eexists. eexists. repeat split. assert (sc_line s = sc_line t) as -> by (fields H; assumption).
        apply w_column, w_line. exact (fun _ => H0).
      - exists s, t. repeat split; auto. exact (fun _ => H0). }
    destruct X as (s1 & t1 & X1 & X2 & X3 & X4 & X5). rewrite X1 in *. rewrite X2.
    rewrite P1 in X4. rewrite P2 in X5.
    pose proof (adv_tail s1 _ _ _ X4) as W1. pose proof (adv_tail t1 _ _ _ X5) as W2.
    assert (Le : unread (adv s1) <= n) by (unfold unread in *; rewrite W1; rewrite P1 in L; cbn in *; lia).
    pose proof (IH (adv s1) (adv t1) Le (adv_same s1 t1 X3)) as G. rewrite W1, W2 in G. exact (G Q).
Qed.

(** ** Tokens *)
Lemma slice_same s t a b : R s t -> b < slen A -> source_slice s a b = source_slice t a b.
Proof. intros H L. fields H. unfold source_slice. rewrite S1, S2, !slice_app by exact L. reflexivity. Qed.
Lemma text_same s t : R s t -> K <= unread s ->
  source_slice s (sc_start s) (peek_index s) = source_slice t (sc_start t) (peek_index t).
Proof.
  intros H Q. destruct (peek_same s t H Q) as (_ & <- & _ & L). rewrite (slice_same s t) by auto. fields H. now rewrite E4.
Qed.
Lemma push_sim (mk : string -> scanner -> token) s t :
  (forall x, same_so_far s t -> mk x s = mk x t) -> Rw s t ->
  sim1 s (olet text <- source_slice s (sc_start s) (peek_index s) ;; Done (push_token (mk text s) s))
         (olet text <- source_slice t (sc_start t) (peek_index t) ;; Done (push_token (mk text t) t)).
Proof.
  intros M H. unfold sim1, sim. destruct (source_slice s _ _) as [x| | |] eqn:X; cbn [obind]; auto.
  split; [cbn; auto|]. change (unread (push_token (mk x s) s)) with (unread s). intros Q. pose proof (H Q) as H1. rewrite <- (text_same s t H1 Q), X. cbn [obind].
  eexists. split; [reflexivity|]. assert (E : same_so_far s t) by (destruct H1 as (Y & _ & _ & _ & _ & _ & _ & E); exact E).
  rewrite (M x E). unfold push_token. assert (sc_tokens s = sc_tokens t) as -> by apply E. apply (w_tokens _ s t H Q).
Qed.
Lemma add_sim k s t : Rw s t -> sim1 s (add_token k s) (add_token k t).
Proof.
  intros H. apply (push_sim (fun x s => mkToken k x None None (sc_line s) (sc_start_column s))); auto.
  intros x E. destruct E as (E1 & E2 & E3 & E4 & E5 & E6 & E7 & E8 & _). now rewrite E6, E8.
Qed.
Lemma add_string_sim v l s t : Rw s t -> sim1 s (add_string_literal_token v l s) (add_string_literal_token v l t).
Proof.
  intros H. apply (push_sim (fun x s => mkToken TString x (Some v) None l (sc_start_column s))); auto.
  intros x E. destruct E as (E1 & E2 & E3 & E4 & E5 & E6 & E7 & E8 & _). now rewrite E8.
Qed.
Lemma add_number_sim v s t : Rw s t -> sim1 s (add_number_literal_token v s) (add_number_literal_token v t).
Proof.
  intros H. apply (push_sim (fun x s => mkToken Number x None (Some v) (sc_line s) (sc_start_column s))); auto.
  intros x E. destruct E as (E1 & E2 & E3 & E4 & E5 & E6 & E7 & E8 & _). now rewrite E6, E8.
Qed.
Lemma reset_less s : unread (reset_line s) = unread s.
Proof. unfold reset_line. destruct (negb (sc_is_bol s)); reflexivity. Qed.
Lemma reset_same s t : Rw s t -> Rw (reset_line s) (reset_line t).
Proof.
  intros H Q. rewrite reset_less in Q. specialize (H Q). fields H. exists Y. unfold reset_line, same_so_far. rewrite <- E11.
  destruct (sc_is_bol s); cbn; repeat split; auto; congruence.
Qed.
(** An error at a place that both know. *)
Lemma error_same c s t : Rw s t -> Rw (error c s) (error c t).
Proof.
  intros H Q. assert (Q' : K <= unread s) by exact Q. pose proof (H Q') as H1. unfold error.
  assert (sc_errors s = sc_errors t) as -> by (fields H1; assumption). apply (w_errors (sc_errors t ++ [c]) s t H). exact Q'.
Qed.
(** What the functions look at is the same, or nothing is said. *)
Definition seen (s t : scanner) : Prop := same_so_far s t /\ peek_grapheme s = peek_grapheme t /\
  peek_index s = peek_index t /\ peek_next_grapheme s = peek_next_grapheme t.
Lemma seen_self s : seen s s.
Proof. unfold seen, same_so_far. repeat split. Qed.
Lemma seen_same s t : R s t -> K <= unread s -> seen s t.
Proof.
  intros H Q. destruct (peek_same s t H Q) as (P1 & P2 & P3 & _). destruct H as (Z & _ & _ & _ & _ & _ & _ & E).
  unfold seen. auto.
Qed.
Lemma known {B} (st : B -> scanner) RB (f : scanner -> outcome B) s t : Rw s t ->
  (forall t, Rw s t -> seen s t -> sim st RB s (f s) (f t)) -> sim st RB s (f s) (f t).
Proof.
  intros H X. destruct (Nat.lt_ge_cases (unread s) K) as [Q|Q].
  - apply (sim_small st RB s (f s) (f s) (f t) Q). apply X; [intros Q2; lia|apply seen_self].
  - apply X; auto. apply seen_same; auto.
Qed.
Lemma known2 {B} (st : B -> scanner) RB (f : scanner -> bool -> outcome B) s m t m' : (K <= unread s -> R2 (s, m) (t, m')) ->
  (forall t, Rw s t -> seen s t -> sim st RB s (f s m) (f t m)) -> sim st RB s (f s m) (f t m').
Proof.
  intros H X. destruct (Nat.lt_ge_cases (unread s) K) as [Q|Q].
  - apply (sim_small st RB s (f s m) (f s m) (f t m') Q). apply X; [intros Q2; lia|apply seen_self].
  - destruct (H Q) as [H1 H2]. cbn in H1, H2. subst m'. apply X; [exact (fun _ => H1)|]. apply seen_same; auto.
Qed.
Ltac seens H :=
  destruct H as ((?Q1 & ?Q2 & ?Q3 & ?Q4 & ?Q5 & ?Q6 & ?Q7 & ?Q8 & ?Q9 & ?Q10 & ?Q11 & ?Q12 & ?Q13 & ?Q14 & ?Q15) & ?P1 & ?P2 & ?P3).
Ltac agree u := repeat match goal with E : ?f ?s = ?f u |- context [?f u] => rewrite <- E end.

Lemma matches_sim g s t : Rw s t -> sim2 s (Done (matches g s)) (Done (matches g t)).
Proof.
  intros H. apply (known st2 R2 (fun s => Done (matches g s)) s t H). clear t H. intros t H Q. seens Q.
  unfold matches, is_at_end. agree t. destruct (sc_eof s); [now apply sim_done2|].
  destruct (peek_grapheme s) as [x|]; [|now apply sim_done2]. destruct (negb (String.eqb x g)); [now apply sim_done2|].
  apply sim_done2; [apply adv_less|now apply adv_same].
Qed.
Lemma outdent_sim : forall l s t, Rw s t -> sim2 s (outdent_loop l s) (outdent_loop l t).
Proof.
  induction l as [|n r IH]; intros s t H; [now apply sim_done2|].
  apply (known st2 R2 (outdent_loop (n :: r)) s t H). clear t H. intros t H Q. seens Q. cbn [outdent_loop]. agree t.
  destruct (n ?= sc_bol_spaces s)%N; [now apply sim_done2|exact I|].
  apply (sim_bind (fun s => s) R); [|intros; now apply IH].
  exact (add_sim Outdent _ _ (w_indentation r s t H)).
Qed.
Lemma bol_sim s t : Rw s t -> sim1 s (bol_indentation_tokens s) (bol_indentation_tokens t).
Proof.
  intros H. apply (known (fun s => s) R bol_indentation_tokens s t H). clear t H. intros t H Q. seens Q.
  unfold bol_indentation_tokens. agree t. destruct (negb (sc_is_bol s)); [now apply sim_done|].
  apply (sim_bind (fun s => s) R); [|intros b b' W; apply sim_done; [reflexivity|now apply w_is_bol]].
  destruct (sc_bol_spaces s ?= _)%N; [now apply sim_done| |].
  - apply (sim_bind st2 R2); [now apply outdent_sim|]. intros [b m] [b' m'] W. cbn [st2 fst] in *.
    apply (known2 (fun s => s) R (fun s1 found => if negb found && (0 <? sc_bol_spaces s1)%N then
          Done (error (cause_new (mkLoc (sc_line s1) (sc_column s1)) "Outdent does not match any previous indentation level") s1)
        else Done s1)); [exact W|].
    clear b' m' W. intros u W V. seens V. agree u.
    destruct (negb m && _)%bool; [|now apply sim_done]. apply sim_done; [reflexivity|now apply error_same].
  - destruct (negb (sc_is_cont s)); [|now apply sim_done].
    apply (sim_bind (fun s => s) R); [now apply add_sim|]. intros b b' W.
    apply (known (fun s => s) R (fun s1 => Done (set_indentation (sc_bol_spaces s1 :: sc_indentation s1) s1)) b b' W).
    clear b' W. intros u W V. seens V. agree u. apply sim_done; [reflexivity|now apply w_indentation].
Qed.
Lemma scan_string_sim s t : Rw s t -> sim1 s (scan_string s) (scan_string t).
Proof.
  intros H. apply (known (fun s => s) R scan_string s t H). clear t H. intros t H Q. seens Q. unfold scan_string. cbv zeta. agree t.
  apply (sim_start (fun s => s) R s (string_loop (sc_gi s) s)); [apply string_less|].
  pose proof (string_same (unread s) s t (le_n _) H) as W. set (b := string_loop (sc_gi s) s) in *.
  set (b' := string_loop (sc_gi t) t) in *. clearbody b b'. pose proof (H) as H0.
  apply (known (fun s => s) R (fun s1 => if is_at_end s1 then
      Done (error (cause_new (mkLoc (sc_line s1) (sat_pred (sc_column s1))) "Unterminated string.") s1)
    else olet value <- source_slice (adv s1) (peek_index s) (sc_current (adv s1)) ;;
      add_string_literal_token value (sc_line s) (adv s1)) b b' W).
  clear b' W. intros u W V. seens V. unfold is_at_end. agree u.
  destruct (sc_eof b); [apply sim_done; [reflexivity|now apply error_same]|].
  apply (sim_start (fun s => s) R b (adv b)); [apply adv_less|]. pose proof (adv_same b u W) as Wa.
  set (c := adv b) in *. set (c' := adv u) in *. clearbody c c'.
  destruct (Nat.lt_ge_cases (unread c) K) as [S|S].
  - destruct (source_slice c _ _) as [x| | |]; cbn [obind]; try exact I. apply (sim_small _ _ c _ (add_string_literal_token x (sc_line s) c) _ S).
    apply add_string_sim. intros S2. lia.
  - pose proof (Wa S) as Rc. assert (Z : source_slice c (peek_index s) (sc_current c) = source_slice c' (peek_index s) (sc_current c')).
    { pose proof Rc as Rd. destruct Rd as (Y & _ & _ & _ & _ & _ & Cu & E). assert (sc_current c = sc_current c') as <- by apply E.
      apply slice_same; auto. }
    rewrite <- Z. destruct (source_slice c _ _) as [x| | |]; cbn [obind]; try exact I. now apply add_string_sim.
Qed.
Lemma scan_number_sim s t : Rw s t -> sim1 s (scan_number s) (scan_number t).
Proof.
  intros H. unfold scan_number. cbv zeta.
  apply (sim_start (fun s => s) R s (advance_while is_digit (sc_gi s) s)); [apply while_less|].
  pose proof (while_same is_digit (unread s) s t (le_n _) H) as W. set (b := advance_while is_digit (sc_gi s) s) in *.
  set (b' := advance_while is_digit (sc_gi t) t) in *. clearbody b b'. clear s t H.
  apply (known (fun s => s) R (fun s1 =>
    olet value <- source_slice (if is_match "." s1 then
        advance_while is_digit (sc_gi match peek_next_grapheme s1 with Some c => if is_digit c then adv s1 else s1 | None => s1 end)
          match peek_next_grapheme s1 with Some c => if is_digit c then adv s1 else s1 | None => s1 end else s1)
      (sc_start (if is_match "." s1 then
        advance_while is_digit (sc_gi match peek_next_grapheme s1 with Some c => if is_digit c then adv s1 else s1 | None => s1 end)
          match peek_next_grapheme s1 with Some c => if is_digit c then adv s1 else s1 | None => s1 end else s1))
      (peek_index (if is_match "." s1 then
        advance_while is_digit (sc_gi match peek_next_grapheme s1 with Some c => if is_digit c then adv s1 else s1 | None => s1 end)
          match peek_next_grapheme s1 with Some c => if is_digit c then adv s1 else s1 | None => s1 end else s1)) ;;
    match parse_f64 value with
    | None => Panicked ("Unable to parse string as f64: " ++ value)%string
    | Some number => add_number_literal_token number (if is_match "." s1 then
        advance_while is_digit (sc_gi match peek_next_grapheme s1 with Some c => if is_digit c then adv s1 else s1 | None => s1 end)
          match peek_next_grapheme s1 with Some c => if is_digit c then adv s1 else s1 | None => s1 end else s1)
    end) b b' W).
  clear b' W. intros u W V. assert (X : exists c c', unread c <= unread b /\ Rw c c' /\
    (if is_match "." b then
        advance_while is_digit (sc_gi match peek_next_grapheme b with Some c => if is_digit c then adv b else b | None => b end)
          match peek_next_grapheme b with Some c => if is_digit c then adv b else b | None => b end else b) = c /\
    (if is_match "." u then
        advance_while is_digit (sc_gi match peek_next_grapheme u with Some c => if is_digit c then adv u else u | None => u end)
          match peek_next_grapheme u with Some c => if is_digit c then adv u else u | None => u end else u) = c').
  { seens V. unfold is_match. agree u. pose proof (adv_less b) as La.
    destruct (match peek_grapheme b with Some g => String.eqb g "." | None => false end); [|exists b, u; auto].
    assert (Z : exists d d', unread d <= unread b /\ Rw d d' /\
      match peek_next_grapheme b with Some c => if is_digit c then adv b else b | None => b end = d /\
      match peek_next_grapheme b with Some c => if is_digit c then adv u else u | None => u end = d').
    { destruct (peek_next_grapheme b) as [g|]; [destruct (is_digit g)|]; [exists (adv b), (adv u)|exists b, u|exists b, u]; auto.
      repeat split; auto. now apply adv_same. }
    destruct Z as (d & d' & L1 & L2 & -> & ->). eexists. eexists. split; [|split; [|split; reflexivity]].
    - pose proof (while_less is_digit (sc_gi d) d). lia.
    - exact (while_same is_digit (unread d) d d' (le_n _) L2). }
  destruct X as (c & c' & L & Wc & -> & ->). apply (sim_start (fun s => s) R b c); [exact L|]. clear b u W V L.
  apply (known (fun s => s) R (fun s3 => olet value <- source_slice s3 (sc_start s3) (peek_index s3) ;;
    match parse_f64 value with
    | None => Panicked ("Unable to parse string as f64: " ++ value)%string
    | Some number => add_number_literal_token number s3 end) c c' Wc).
  clear c' Wc. intros u W V.
  destruct (Nat.lt_ge_cases (unread c) K) as [S|S].
  - destruct (source_slice c _ _) as [x| | |]; cbn [obind]; try exact I. destruct (parse_f64 x) as [v|]; [|exact I].
    apply (sim_small _ _ c _ (add_number_literal_token v c) _ S). apply add_number_sim. intros S2. lia.
  - rewrite <- (text_same c u (W S) S). destruct (source_slice c _ _) as [x| | |]; cbn [obind]; try exact I.
    destruct (parse_f64 x) as [v|]; [|exact I]. now apply add_number_sim.
Qed.
Lemma scan_identifier_sim s t : Rw s t -> sim1 s (scan_identifier U s) (scan_identifier U t).
Proof.
  intros H. unfold scan_identifier. cbv zeta.
  match goal with |- context [advance_while ?p (sc_gi s) s] =>
    apply (sim_start (fun s => s) R s (advance_while p (sc_gi s) s)); [apply while_less|];
    pose proof (while_same p (unread s) s t (le_n _) H) as W; set (b := advance_while p (sc_gi s) s) in *;
    set (b' := advance_while p (sc_gi t) t) in * end.
  clearbody b b'. clear s t H.
  destruct (Nat.lt_ge_cases (unread b) K) as [S|S].
  - destruct (source_slice b _ _) as [x| | |]; cbn [obind]; try exact I.
    apply (sim_small _ _ b _ (add_token match lookup_keyword keywords x with Some t => t | None => Identifier end b) _ S).
    apply add_sim. intros S2. lia.
  - rewrite <- (text_same b b' (W S) S). destruct (source_slice b _ _) as [x| | |]; cbn [obind]; try exact I. now apply add_sim.
Qed.
Lemma punct_sim k b s t : Rw s t -> sim3 s (scan_punct k b s) (scan_punct k b t).
Proof.
  intros H. unfold scan_punct. apply (sim_bind (fun s => s) R); [now apply bol_sim|]. intros s1 t1 H1.
  apply (sim_bind (fun s => s) R); [now apply add_sim|]. intros s2 t2 H2. now apply sim_done3.
Qed.
(** A pure step that tells whether a cluster was there. *)
Lemma pair_sim {B} (st : B -> scanner) RB g (f : scanner -> bool -> outcome B) s t : Rw s t ->
  (forall s t m, Rw s t -> seen s t -> sim st RB s (f s m) (f t m)) ->
  sim st RB s (let '(s2, m) := matches g s in f s2 m) (let '(s2, m) := matches g t in f s2 m).
Proof.
  intros H X. pose proof (matches_sim g s t H) as M. destruct (matches g s) as [s2 m]. destruct (matches g t) as [t2 m'].
  destruct M as [L M]. cbn [st2 fst] in L, M. apply (sim_start st RB s s2); [exact L|].
  apply (known2 st RB f s2 m t2 m'); [|auto]. intros Q. destruct (M Q) as (b' & Z & W). injection Z as <-. exact W.
Qed.
Lemma punct_eq_sim k2 k1 b s t : Rw s t -> sim3 s (scan_punct_eq k2 k1 b s) (scan_punct_eq k2 k1 b t).
Proof.
  intros H. unfold scan_punct_eq. apply (sim_bind (fun s => s) R); [now apply bol_sim|]. intros s1 t1 H1.
  apply (pair_sim st3 R3 "=" (fun s2 m => olet s3 <- add_token (if m then k2 else k1) s2 ;; Done (s3, false, b))); [exact H1|].
  intros s2 t2 m H2 _. apply (sim_bind (fun s => s) R); [now apply add_sim|]. intros s3 t3 H3. now apply sim_done3.
Qed.
Lemma matches_less g s : unread (fst (matches g s)) <= unread s.
Proof.
  unfold matches. destruct (is_at_end s); auto. destruct (peek_grapheme s); auto. destruct (negb _); auto. apply adv_less.
Qed.
Lemma spaces_less : forall l s, unread (match_spaces l s) <= unread s.
Proof.
  induction l as [|q r IH]; intros s; cbn [match_spaces]; auto. pose proof (matches_less " " s) as L.
  destruct (matches " " s) as [s1 [|]]; cbn [fst] in L; [|exact L]. specialize (IH s1). lia.
Qed.
Lemma matches_gi g s : forall r q, sc_gi s = q :: r -> snd (matches g s) = true -> sc_gi (fst (matches g s)) = r.
Proof.
  intros r [i x] G M. unfold matches in *. destruct (is_at_end s); [discriminate|]. unfold peek_grapheme in *. rewrite G in *.
  destruct (negb _); [discriminate|]. cbn [fst]. now apply adv_tail with i x.
Qed.
Lemma spaces_cons q r s : match_spaces (q :: r) s = let '(s1, m) := matches " " s in if m then match_spaces r s1 else s1.
Proof. reflexivity. Qed.
Lemma spaces_same : forall n s t, unread s <= n -> Rw s t -> Rw (match_spaces (sc_gi s) s) (match_spaces (sc_gi t) t).
Proof.
  induction n as [|n IH]; intros s t L H Q; pose proof (spaces_less (sc_gi s) s) as Ls.
  - exfalso. lia.
  - assert (Q0 : K <= unread s) by lia. specialize (H Q0). assert (H0 := H).
    destruct (two_left s t H Q0) as (i & g & j & h & Z & P1 & P2 & _).
    rewrite P1, P2 in *. rewrite spaces_cons in Q, Ls. rewrite !spaces_cons. pose proof (matches_sim " " s t (fun _ => H0)) as [M1 M2].
    pose proof (matches_gi " " s _ _ P1) as W1. pose proof (matches_gi " " t _ _ P2) as W2.
    destruct (matches " " s) as [s1 m]. destruct (matches " " t) as [t1 m']. cbn [fst snd st2] in *.
    assert (Q1 : K <= unread s1).
    { destruct m; [|exact Q]. pose proof (spaces_less ((j, h) :: (Z ++ T1)%list) s1). lia. }
    destruct (M2 Q1) as (b' & E & [H1 E1]). injection E as <-. cbn in H1, E1. subst m'.
    destruct m; [|exact H1]. specialize (W1 eq_refl). specialize (W2 eq_refl).
    assert (Le : unread s1 <= n) by (unfold unread in *; rewrite W1; rewrite P1 in L; cbn in *; lia).
    pose proof (IH s1 t1 Le (fun _ => H1)) as G. rewrite W1, W2 in G. exact (G Q).
Qed.
Lemma eol_same s t : Rw s t -> Rw (advance_to_eol s) (advance_to_eol t).
Proof. exact (while_same _ (unread s) s t (le_n _)). Qed.
Lemma eol_less s : unread (advance_to_eol s) <= unread s.
Proof. apply while_less. Qed.

Ltac bind1 := apply (sim_bind (fun s => s) R); [|intros ? ? ?].
Lemma cluster_sim g s t : Rw s t -> sim3 s (scan_cluster U g s) (scan_cluster U g t).
Proof.
  intros H. apply (known st3 R3 (scan_cluster U g) s t H). clear t H. intros t H V. unfold scan_cluster.
  repeat match goal with |- sim _ _ _ (if ?b then scan_punct _ _ _ else _) _ => destruct b; [now apply punct_sim|] end.
  destruct (String.eqb g "(").
  { bind1; [now apply bol_sim|].
    match goal with W : _ -> R ?b ?b' |- _ =>
      apply (known st3 R3 (fun s1 => olet s2 <- add_token (if sc_abutting s1 then LeftParenAbutting else LeftParen) s1 ;; Done (s2, false, true)) b b' W) end.
    intros u W Z. seens Z. agree u. bind1; [now apply add_sim|]. now apply sim_done3. }
  repeat match goal with |- sim _ _ _ (if ?b then scan_punct _ _ _ else _) _ => destruct b; [now apply punct_sim|] end.
  repeat match goal with |- sim _ _ _ (if ?b then scan_punct_eq _ _ _ _ else _) _ => destruct b; [now apply punct_eq_sim|] end.
  destruct (String.eqb g "/").
  { cbv zeta. assert (sc_is_bol t = sc_is_bol s) as -> by (seens V; congruence). bind1; [now apply bol_sim|].
    apply (pair_sim st3 R3 "/" (fun s2 m => if m : bool then Done (set_only_comment (sc_is_bol s) (advance_to_eol s2), false, false)
      else olet s3 <- add_token Slash s2 ;; Done (s3, false, true))); [assumption|].
    intros s2 t2 [|] H2 _.
    - apply sim_done3; [exact (eol_less s2)|]. apply w_only_comment. now apply eol_same.
    - bind1; [now apply add_sim|]. now apply sim_done3. }
  destruct (String.eqb g s_backslash).
  { cbv zeta. apply (sim_start st3 R3 s (match_spaces (sc_gi s) s)); [apply spaces_less|].
    pose proof (spaces_same (unread s) s t (le_n _) H) as W. set (b := match_spaces (sc_gi s) s) in *.
    set (b' := match_spaces (sc_gi t) t) in *. clearbody b b'. clear s t H V.
    pose proof (matches_sim s_cr b b' W) as [M1 M2]. cbn [st2] in M1, M2.
    assert (W2 : Rw (fst (matches s_cr b)) (fst (matches s_cr b'))).
    { intros Q. destruct (M2 Q) as (z & E & [Z _]). injection E as <-. exact Z. }
    apply (sim_start st3 R3 b (fst (matches s_cr b))); [exact M1|].
    apply (pair_sim st3 R3 s_nl (fun s3 m => if m : bool then Done (set_is_cont true (reset_line s3), false, false)
      else Done (error (cause_new (mkLoc (sc_line s3) (sc_start_column s3)) ("Unexpected character: '" ++ s_backslash ++ "'")) s3,
               false, false))); [exact W2|].
    intros s3 t3 m H3 Z. seens Z. agree t3. destruct m.
    - apply sim_done3; [exact (Nat.eq_le_incl _ _ (reset_less s3))|]. apply w_is_cont. now apply reset_same.
    - apply sim_done3; [reflexivity|]. now apply error_same. }
  destruct (String.eqb g s_tab).
  { seens V. agree t. apply sim_done3; [reflexivity|]. now apply error_same. }
  destruct (String.eqb g " ").
  { seens V. agree t. destruct (sc_is_bol s); apply sim_done3; try reflexivity; [now apply w_bol_spaces|exact H]. }
  destruct (String.eqb g s_cr); [now apply sim_done3|].
  destruct (String.eqb g s_nl).
  { cbv zeta. seens V. agree t. apply (sim_bind (fun s => s) R).
    - destruct (_ && _ && _)%bool; [now apply add_sim|now apply sim_done].
    - intros s1 t1 H1. apply sim_done3; [exact (Nat.eq_le_incl _ _ (reset_less s1))|now apply reset_same]. }
  destruct (String.eqb g s_quote).
  { bind1; [now apply bol_sim|]. bind1; [now apply scan_string_sim|]. now apply sim_done3. }
  bind1; [now apply bol_sim|].
  destruct (is_digit g); [bind1; [now apply scan_number_sim|]; now apply sim_done3|].
  destruct (is_alphabetic U g); [bind1; [now apply scan_identifier_sim|]; now apply sim_done3|].
  match goal with W : _ -> R ?b ?b' |- _ =>
    apply (known st3 R3 (fun s1 => Done (error (cause_new (mkLoc (sc_line s1) (sc_column s1)) ("Unexpected token: " ++ g)) s1, false, false)) b b' W) end.
  intros u W Z. seens Z. agree u. apply sim_done3; [reflexivity|]. now apply error_same.
Qed.
Lemma token_sim s t : Rw s t -> sim1 s (scan_token U s) (scan_token U t).
Proof.
  intros H. apply (known (fun s => s) R (scan_token U) s t H). clear t H. intros t H V.
  unfold scan_token. cbv zeta.
  assert (X : sc_column s = sc_column t) by (seens V; assumption).
  pose proof (w_start_column (sc_column s) s t H) as H1. rewrite <- X.
  pose proof (adv_same _ _ H1) as H2. pose proof (adv_less (set_start_column (sc_column s) s)) as L.
  destruct V as (_ & V & _). unfold adv in *. unfold peek_grapheme in V.
  destruct (advance (set_start_column (sc_column s) s)) as [s1 o1] eqn:A1.
  destruct (advance (set_start_column (sc_column s) t)) as [t1 o2] eqn:A2. cbn [fst] in H2, L.
  assert (O : match o1, o2 with Some (_, g), Some (_, g') => g = g' | None, None => True | _, _ => False end).
  { unfold advance in A1, A2. cbn in A1, A2. destruct (sc_gi s) as [|[i g] r]; destruct (sc_gi t) as [|[i' g'] r'];
      try discriminate; injection A1 as <- <-; injection A2 as <- <-; auto. now injection V. }
  destruct o1 as [[i g]|]; destruct o2 as [[i' g']|]; try contradiction; [|now apply sim_done].
  subst g'. apply (sim_start (fun s => s) R s s1); [exact L|].
  apply (sim_bind st3 R3); [now apply cluster_sim|]. intros [[b w] f] [[b' w'] f'] W. cbn [st3 fst] in *.
  destruct (Nat.lt_ge_cases (unread b) K) as [S|S].
  - split; [reflexivity|]. intros S2. change (K <= unread b) in S2. lia.
  - destruct (W S) as (W1 & W2 & W3). cbn in W1, W2, W3. subst w' f'. apply sim_done; [reflexivity|].
    apply w_abutting, w_follow_cont. exact (fun _ => W1).
Qed.
End Two.

Lemma token_less U s s1 : scan_token U s = Done s1 -> unread s1 <= unread s.
Proof.
  intros Q. pose proof (token_sim U "" "" "" (sc_gi s) nil s s) as G.
  assert (W : Rw "" "" "" (sc_gi s) nil s s) by (intros Y; unfold unread in Y; lia).
  specialize (G W). rewrite Q in G. apply G.
Qed.
Lemma steps_less U n : forall s r, steps U n s r -> unread r <= unread s.
Proof.
  induction n as [|n IH]; cbn; intros s r; [intros ->; auto|]. intros (_ & s1 & Q & S).
  specialize (IH _ _ S). apply token_less in Q. change (unread s1 <= unread s) in Q. lia.
Qed.
Lemma steps_same U A B1 B2 T1 T2 n : forall s t r, R A B1 B2 T1 T2 s t -> steps U n s r -> length T1 + 2 <= unread r ->
  exists r', steps U n t r' /\ R A B1 B2 T1 T2 r r'.
Proof.
  induction n as [|n IH]; cbn [steps]; intros s t r H Q L; [subst r; eauto|]. destruct Q as (E & s1 & Q & S).
  pose proof (steps_less U n _ _ S) as L1. pose proof (token_less U _ _ Q) as L2. change (unread s1 <= unread s) in L2.
  destruct (seen_same A B1 B2 T1 T2 s t H ltac:(lia)) as (Sf & _ & P & _).
  pose proof (token_sim U A B1 B2 T1 T2 (set_start (peek_index s) s) (set_start (peek_index s) t)
    (w_start A B1 B2 T1 T2 (peek_index s) s t (fun _ => H))) as G. rewrite Q in G. destruct G as [_ G].
  destruct (G ltac:(lia)) as (t1 & Q2 & H1). destruct (IH _ _ _ H1 S L) as (r' & S2 & H2).
  exists r'. split; auto. split.
  - unfold is_at_end in *. rewrite <- E. symmetry. apply Sf.
  - exists t1. rewrite <- P. auto.
Qed.

(** ** From the beginning *)
Lemma indices_app gs : forall i ds, grapheme_indices i (gs ++ ds) = (grapheme_indices i gs ++ grapheme_indices (i + slen (sconcat gs)) ds)%list.
Proof.
  induction gs as [|g r IH]; intros i ds; cbn; [now rewrite Nat.add_0_r|]. rewrite IH, len_app. f_equal. f_equal. f_equal. lia.
Qed.
Lemma indices_length gs : forall i, length (grapheme_indices i gs) = length gs.
Proof. induction gs as [|g r IH]; intros i; cbn; auto. Qed.
Lemma indices_below gs : forall i, Forall (fun g => g <> EmptyString) gs ->
  Forall (fun q => fst q < i + slen (sconcat gs)) (grapheme_indices i gs).
Proof.
  induction gs as [|g r IH]; intros i F; cbn; constructor; inversion F as [|? ? N F']; subst.
  - cbn. rewrite len_app. destruct g; [now destruct N|]. cbn. lia.
  - specialize (IH (i + slen g) F'). rewrite len_app. eapply Forall_impl; [|exact IH]. intros q. cbn. lia.
Qed.
Lemma concat_app a b : sconcat (a ++ b)%list = sconcat a ++ sconcat b.
Proof. induction a as [|g r IH]; cbn; auto. rewrite IH. clear. induction g; cbn; congruence. Qed.
Theorem scanner_ahead U X D1 D2 n s : Forall (fun g => g <> EmptyString) X -> steps U n (scanner_new (X ++ D1)) s ->
  length D1 + 2 <= unread s ->
  exists t, steps U n (scanner_new (X ++ D2)) t /\ same_so_far s t /\ unread t + length D1 = unread s + length D2.
Proof.
  intros F S L. set (A := sconcat X).
  assert (H : R A (sconcat D1) (sconcat D2) (grapheme_indices (slen A) D1) (grapheme_indices (slen A) D2)
    (scanner_new (X ++ D1)) (scanner_new (X ++ D2))).
  { exists (grapheme_indices 0 X). unfold same_so_far, scanner_new. cbn [sc_source sc_gi sc_current]. rewrite !concat_app, !indices_app. cbn [Nat.add].
    pose proof (indices_below X 0 F) as B. pose proof (steps_less U n _ _ S) as L1. unfold unread in L1 at 2.
    cbn [sc_gi scanner_new] in L1. rewrite indices_length, app_length in L1.
    repeat split; auto. destruct X as [|g r]; [cbn in L1; unfold unread in *; lia|]. inversion F as [|? ? N _]. cbn. unfold A. cbn.
    rewrite len_app. destruct g; [now destruct N|]. cbn. lia. }
  destruct (steps_same U A _ _ _ _ n _ _ s H S) as (t & S2 & H2); [now rewrite indices_length|].
  exists t. split; auto. destruct H2 as (Y & _ & _ & G1 & G2 & _ & _ & E). split; auto.
  unfold unread. rewrite G1, G2, !app_length, !indices_length. lia.
Qed.
