(** The resolver on programs that differ in local names only (C105). *)
From Verif Require Import Base F64 Token Ast Resolver AstInd SpecPlace SpecOutline SpecAlpha Outline.
From Coq Require Import Lia.
Local Open Scope string_scope.
Local Open Scope list_scope.

(** ** Scopes *)
Definition paired (f : list (string * string)) (sc sc' : scope) : Prop :=
  (map fst sc = map fst f /\ map fst sc' = map snd f) /\ map snd sc = map snd sc' /\
  NoDup (map fst f) /\ NoDup (map snd f).
Inductive stacks : partners -> list scope -> list scope -> Prop :=
| st_top : forall g, stacks nil [g] [g]
| st_local : forall f sc sc' E r r', paired f sc sc' -> stacks E r r' -> stacks (f :: E) (sc :: r) (sc' :: r').
Definition mated (E : partners) (s s' : rstate) : Prop :=
  stacks E (scopes s) (scopes s') /\ function_type s = function_type s' /\ class_type s = class_type s'.

Lemma paired_nil : paired nil nil nil.
Proof. repeat split; constructor. Qed.
Lemma paired_length : forall f sc sc', paired f sc sc' -> length sc = length sc'.
Proof. intros f sc sc' (_ & E & _). rewrite <- (map_length snd sc), E. apply map_length. Qed.
Lemma get_out : forall sc x, ~ In x (map fst sc) -> scope_get sc x = None.
Proof.
  induction sc as [|[y v] sc IH]; intros x N; cbn in *; auto. destruct (y =? x) eqn:E; [|apply IH; tauto].
  apply String.eqb_eq in E. tauto.
Qed.
Lemma upsert_out : forall sc x h w, ~ In x (map fst sc) -> scope_upsert sc x h w = sc ++ [(x, w)].
Proof.
  induction sc as [|[y v] sc IH]; intros x h w N; cbn in *; auto. destruct (y =? x) eqn:E; [|rewrite IH; tauto].
  apply String.eqb_eq in E. tauto.
Qed.
Lemma paired_cons : forall a b f sc sc', paired ((a, b) :: f) sc sc' ->
  exists v r r', sc = (a, v) :: r /\ sc' = (b, v) :: r' /\ paired f r r' /\ ~ In a (map fst f) /\ ~ In b (map snd f).
Proof.
  intros a b f [|[x v] r] [|[x' v'] r'] ((A & B) & C & D & D'); try discriminate. cbn in *.
  injection A as -> A. injection B as -> B. injection C as -> C. inversion D; inversion D'; subst.
  exists v', r, r'. repeat split; auto.
Qed.
Lemma get_in : forall f sc sc' x x', paired f sc sc' -> In (x, x') f -> scope_get sc x = scope_get sc' x' /\ scope_get sc x <> None.
Proof.
  induction f as [|[a b] f IH]; intros sc sc' x x' P I; [destruct I|].
  destruct (paired_cons _ _ _ _ _ P) as (v & r & r' & -> & -> & P' & Na & Nb). cbn. destruct I as [I|I].
  - injection I as -> ->. rewrite !String.eqb_refl. split; congruence.
  - assert (a <> x) by (intros ->; apply Na; apply (in_map fst) in I; exact I).
    assert (b <> x') by (intros ->; apply Nb; apply (in_map snd) in I; exact I).
    rewrite (proj2 (String.eqb_neq a x)), (proj2 (String.eqb_neq b x')) by auto. eauto.
Qed.
Lemma upsert_in : forall f sc sc' x x' h w, paired f sc sc' -> In (x, x') f ->
  paired f (scope_upsert sc x h w) (scope_upsert sc' x' h w).
Proof.
  induction f as [|[a b] f IH]; intros sc sc' x x' h w P I; [destruct I|].
  destruct (paired_cons _ _ _ _ _ P) as (v & r & r' & -> & -> & P' & Na & Nb). cbn [scope_upsert]. destruct I as [I|I].
  - injection I as -> ->. rewrite !String.eqb_refl. destruct P' as ((A & B) & C & D & D').
    repeat split; cbn; try congruence; constructor; auto.
  - assert (a <> x) by (intros ->; apply Na; apply (in_map fst) in I; exact I).
    assert (b <> x') by (intros ->; apply Nb; apply (in_map snd) in I; exact I).
    rewrite (proj2 (String.eqb_neq a x)), (proj2 (String.eqb_neq b x')) by auto.
    destruct (IH _ _ _ _ h w P' I) as ((A & B) & C & D & D'). repeat split; cbn; try congruence; constructor; auto.
Qed.
Lemma nodup_snoc : forall A (l : list A) x, NoDup l -> ~ In x l -> NoDup (l ++ [x]).
Proof.
  intros A l x N I. apply NoDup_rev in N. rewrite <- (rev_involutive (l ++ [x])). apply NoDup_rev. rewrite rev_app_distr. cbn.
  constructor; auto. now rewrite <- in_rev.
Qed.
Lemma paired_snoc : forall f sc sc' x x' w, paired f sc sc' -> ~ In x (map fst f) -> ~ In x' (map snd f) ->
  paired (f ++ [(x, x')]) (sc ++ [(x, w)]) (sc' ++ [(x', w)]).
Proof.
  intros f sc sc' x x' w ((A & B) & C & D & D') N N'. unfold paired. rewrite !map_app. cbn. rewrite A, B, C.
  repeat split; auto using nodup_snoc.
Qed.

Lemma stacks_local : forall f E a b, stacks (f :: E) a b ->
  exists sc sc' r r', a = sc :: r /\ b = sc' :: r' /\ paired f sc sc' /\ stacks E r r'.
Proof. intros f E a b H. inversion H as [|f0 sc sc' E0 r r' P S' Q1 Q2 Q3]; subst. exists sc, sc', r, r'. auto. Qed.
Lemma stacks_length : forall E a b, stacks E a b -> length a = length b /\ length a = S (length E).
Proof. induction 1; cbn; intuition lia. Qed.
Lemma lookup_mated : forall E a b, stacks E a b -> forall x x' d, meant E x x' ->
  lookup_scopes a x d = lookup_scopes b x' d /\ (lookup_scopes a x d = None -> x = x').
Proof.
  induction 1 as [g|f sc sc' E r r' P _ IH]; intros x x' d M; cbn in *.
  - subst. auto.
  - destruct M as [I|(N & N' & M)].
    + destruct (get_in _ _ _ _ _ P I) as [-> G]. destruct (scope_get sc' x'); [split; [auto|discriminate]|]. congruence.
    + destruct P as ((A & B) & _). rewrite !get_out by congruence. auto.
Qed.
Lemma last_mated : forall E a b, stacks E a b -> exists g ra rb, rev a = g :: ra /\ rev b = g :: rb.
Proof.
  induction 1 as [g|f sc sc' E r r' P _ (g & ra & rb & A & B)]; cbn; [exists g, nil, nil; auto|].
  rewrite A, B. cbn. eauto.
Qed.
Lemma update_mated : forall E a b h, stacks E a b -> stacks E (update_last h a) (update_last h b).
Proof.
  intros E a b h H. induction H as [g|f sc sc' E r r' P H IH]; [constructor|]. cbn.
  destruct H; cbn in *; constructor; auto.
Qed.

(** ** Computations *)
(** Only the innermost scope may have grown. *)
Definition beside (E E1 : partners) : Prop := length E = length E1 /\ tl E = tl E1.
Lemma beside_refl : forall E, beside E E.
Proof. split; auto. Qed.
Lemma beside_trans : forall E E1 E2, beside E E1 -> beside E1 E2 -> beside E E2.
Proof. intros E E1 E2 [A B] [C D]. split; congruence. Qed.
Lemma beside_sym : forall E E1, beside E E1 -> beside E1 E.
Proof. intros E E1 [A B]. split; congruence. Qed.
Lemma beside_local : forall f E E1, beside (f :: E) E1 -> exists f1, E1 = f1 :: E.
Proof. intros f E [|f1 E1] [A B]; [discriminate|]. cbn in B. exists f1. congruence. Qed.

Definition mates {A} (E EA E' : partners) (m m' : R A) : Prop := forall s s', mated E s s' ->
  match m s, m' s' with
  | ROk a u, ROk a' u' => a = a' /\ mated E' u u'
  | RErr c u, RErr c' u' => same_complaint c c' /\ exists E1, beside EA E1 /\ mated E1 u u'
  | RPanic w, RPanic w' => w = w'
  | _, _ => False
  end.
Lemma mates_ret : forall A E EA (a : A), mates E EA E (rret a) (rret a).
Proof. intros A E EA a s s' M. cbn. auto. Qed.
Lemma mates_anchor : forall A E EA EB E' (m m' : R A), mates E EA E' m m' -> beside EA EB -> mates E EB E' m m'.
Proof.
  intros A E EA EB E' m m' H B s s' M. specialize (H s s' M).
  destruct (m s), (m' s'); auto. destruct H as (C & E1 & B1 & M1). split; auto. exists E1. split; auto.
  eapply beside_trans; [apply beside_sym; exact B|exact B1].
Qed.
Lemma mates_bind : forall A B E EA E1 E2 (m m' : R A) (k k' : A -> R B),
  mates E EA E1 m m' -> (forall a, mates E1 EA E2 (k a) (k' a)) -> mates E EA E2 (rbind m k) (rbind m' k').
Proof.
  intros A B E EA E1 E2 m m' k k' H1 H2 s s' M. specialize (H1 s s' M). unfold rbind.
  destruct (m s), (m' s'); try contradiction; auto. destruct H1 as [<- M1]. exact (H2 _ _ _ M1).
Qed.
Lemma mates_seq : forall E EA E1 E2 m m' n n', mates E EA E1 m m' -> mates E1 EA E2 n n' -> mates E EA E2 (seq m n) (seq m' n').
Proof.
  intros. unfold seq. eapply mates_bind; [eassumption|]. intros a. eapply mates_bind; [eassumption|]. intros b. apply mates_ret.
Qed.
Lemma mates_get_fun : forall E EA, mates E EA E (rget function_type) (rget function_type).
Proof. intros E EA s s' M. cbn. split; auto. apply M. Qed.
Lemma mates_get_class : forall E EA, mates E EA E (rget class_type) (rget class_type).
Proof. intros E EA s s' M. cbn. split; auto. apply M. Qed.
Lemma mates_set_fun : forall E EA t, mates E EA E (rmodify (set_function_type t)) (rmodify (set_function_type t)).
Proof. intros E EA t s s' (S & F & C). cbn. split; auto. repeat split; auto. Qed.
Lemma mates_set_class : forall E EA t, mates E EA E (rmodify (set_class_type t)) (rmodify (set_class_type t)).
Proof. intros E EA t s s' (S & F & C). cbn. split; auto. repeat split; auto. Qed.
Lemma mates_begin : forall E EA, mates E EA (nil :: E) begin_scope begin_scope.
Proof.
  intros E EA s s' (S & F & C). unfold begin_scope. rewrite (proj1 (stacks_length _ _ _ S)). destruct (_ <=? _)%N; auto.
  split; auto. repeat split; auto. cbn. constructor; auto using paired_nil.
Qed.
Lemma mates_fail : forall A E EA E' c c', same_complaint c c' -> beside EA E -> mates E EA E' (rfail (A := A) c) (rfail c').
Proof. intros A E EA E' c c' Sc B s s' M. cbn. eauto. Qed.
Lemma mated_end : forall f E s s', mated (f :: E) s s' -> mated E (end_scope s) (end_scope s').
Proof. intros f E s s' (S & F & C). destruct (stacks_local _ _ _ _ S) as (sc & sc' & r & r' & E1 & E2 & P & S'). unfold end_scope. rewrite E1, E2. repeat split; auto. Qed.
Lemma mated_fun : forall E t s s', mated E s s' -> mated E (set_function_type t s) (set_function_type t s').
Proof. intros E t s s' (S & F & C). repeat split; auto. Qed.
Lemma mated_class : forall E t s s', mated E s s' -> mated E (set_class_type t s) (set_class_type t s').
Proof. intros E t s s' (S & F & C). repeat split; auto. Qed.
Lemma mates_finally : forall A E EA EB E' E'' (m m' : R A) g, mates E EA E' m m' ->
  (forall s s', mated E' s s' -> mated E'' (g s) (g s')) ->
  (forall E1 s s', beside EA E1 -> mated E1 s s' -> exists E2, beside EB E2 /\ mated E2 (g s) (g s')) ->
  mates E EB E'' (rfinally m g) (rfinally m' g).
Proof.
  intros A E EA EB E' E'' m m' g H G1 G2 s s' M. specialize (H s s' M). unfold rfinally.
  destruct (m s), (m' s'); try contradiction; auto.
  - destruct H as [<- H]. auto.
  - destruct H as (C & E1 & B & H). split; auto. eapply G2; eauto.
Qed.
(** A scope of its own. *)
Lemma mates_scope : forall A E f g (m m' : R A), mates (nil :: E) (nil :: E) (f :: E) m m' ->
  (forall f1 s s', mated (f1 :: E) s s' -> mated E (g s) (g s')) ->
  mates E E E (rdo begin_scope ;; rfinally m g) (rdo begin_scope ;; rfinally m' g).
Proof.
  intros A E f g m m' H G. eapply mates_bind; [apply mates_begin|]. intros _.
  eapply mates_finally; [exact H|intros; eauto|]. intros E1 s s' B M. destruct (beside_local _ _ _ B) as (f1 & ->).
  exists E. split; [apply beside_refl|eauto].
Qed.

Lemma mates_limit : forall E EA n x x' l, beside EA E -> mates E EA E (ensure_scope_index_limit n x l) (ensure_scope_index_limit n x' l).
Proof.
  intros E EA n x x' l B. unfold ensure_scope_index_limit. destruct (_ <? _)%N; [|apply mates_ret].
  apply mates_fail; auto. split; auto.
Qed.
Lemma mates_lookup : forall E EA x x' l, beside EA E -> meant E x x' ->
  mates E EA E (resolve_local_variable x l) (resolve_local_variable x' l).
Proof.
  intros E EA x x' l B N s s' M. pose proof M as (S & F & C). unfold resolve_local_variable.
  destruct (lookup_mated _ _ _ S x x' 0 N) as [L U]. rewrite <- L. destruct (lookup_scopes (scopes s) x 0) as [[d v]|]; [auto|].
  rewrite (U eq_refl) in *. clear L U N. rewrite (proj1 (stacks_length _ _ _ S)).
  unfold rbind, forward_reserve_global_var. destruct (last_mated _ _ _ S) as (g & ra & rb & -> & ->). unfold rbind.
  pose proof (mates_limit E EA (length g) x' x' l B s s' M) as H.
  destruct (ensure_scope_index_limit _ _ _ s) as [[] s1|c s1|w], (ensure_scope_index_limit _ _ _ s') as [[] s1'|c' s1'|w'];
    try contradiction; auto.
  destruct (scope_get g x'); auto. destruct (_ =? 0)%nat; auto. destruct H as [_ (S1 & F1 & C1)].
  split; auto. repeat split; auto. cbn. now apply update_mated.
Qed.
Lemma mated_top : forall s s', mated nil s s' -> s = s'.
Proof. intros [a b c] [a' b' c'] (S & F & C). cbn in *. inversion S; subst. reflexivity. Qed.
Lemma mates_top : forall A (m : R A), (forall s, length (scopes s) = 1 ->
    match m s with ROk _ u | RErr _ u => length (scopes u) = 1 | RPanic _ => True end) -> mates nil nil nil m m.
Proof.
  intros A m H s s' M. pose proof (proj2 (stacks_length _ _ _ (proj1 M))) as L. pose proof (mated_top _ _ M) as <-.
  assert (K : forall u, length (scopes u) = 1 -> mated nil u u).
  { intros u U. split; [|auto]. destruct (scopes u) as [|g [|g' r]]; try discriminate. constructor. }
  specialize (H s L). destruct (m s) as [a u|c u|w]; auto. split; [split; auto|]. exists nil. split; [apply beside_refl|auto].
Qed.
Lemma limit_state : forall n x l s, match ensure_scope_index_limit n x l s with ROk _ u | RErr _ u => u = s | RPanic _ => True end.
Proof. intros n x l s. unfold ensure_scope_index_limit. destruct (_ <? _)%N; reflexivity. Qed.
Lemma top_define : forall x l, mates nil nil nil (define x l) (define x l).
Proof.
  intros x l. apply mates_top. intros s L. unfold define. destruct (scopes s) as [|sc r] eqn:E; [exact I|]. unfold rbind.
  pose proof (limit_state (length sc) x l s) as H. destruct (ensure_scope_index_limit _ _ _ s) as [[] s1|c s1|w]; subst; auto; [|now rewrite E].
  destruct (_ && _); exact L.
Qed.
Lemma top_declare : forall x l, mates nil nil nil (declare x l) (declare x l).
Proof.
  intros x l. apply mates_top. intros s L. unfold declare. destruct (scopes s) as [|sc r] eqn:E; [exact I|]. unfold rbind.
  pose proof (limit_state (length sc) x l s) as H. destruct (ensure_scope_index_limit _ _ _ s) as [[] s1|c s1|w]; subst; auto; [|now rewrite E].
  destruct (match scope_get sc x with None => _ | Some _ => _ end). destruct (_ && _); exact L.
Qed.
Lemma mates_define : forall E x x' l E', introduce E x x' E' -> mates E E E' (define x l) (define x' l).
Proof.
  intros E x x' l E' N. destruct N as [x|f r x x' N N'|f r x x' I]; [apply top_define| |];
    intros s s' M; pose proof M as (S & F & C); unfold define;
    destruct (stacks_local _ _ _ _ S) as (sc & sc' & q & q' & E1 & E2 & P & S'); rewrite E1, E2; unfold rbind; rewrite <- (paired_length _ _ _ P).
  - pose proof (mates_limit _ _ (length sc) x x' l (beside_refl (f :: r)) s s' M) as H.
    destruct (ensure_scope_index_limit _ x _ s) as [[] s1|c s1|w], (ensure_scope_index_limit _ x' _ s') as [[] s1'|c' s1'|w'];
      try contradiction; auto.
    destruct P as ((A & B) & P). rewrite !get_out, !upsert_out by congruence. cbn. destruct H as [_ (_ & F1 & C1)].
    split; auto. repeat split; auto. cbn. constructor; auto. apply paired_snoc; auto. split; auto.
  - pose proof (mates_limit _ _ (length sc) x x' l (beside_refl (f :: r)) s s' M) as H.
    destruct (ensure_scope_index_limit _ x _ s) as [[] s1|c s1|w], (ensure_scope_index_limit _ x' _ s') as [[] s1'|c' s1'|w'];
      try contradiction; auto.
    rewrite <- (proj1 (get_in _ _ _ _ _ P I)). destruct H as [_ (_ & F1 & C1)]. unfold is_in_global_scope. cbn [set_scopes scopes length].
    rewrite (proj1 (stacks_length _ _ _ S')).
    match goal with |- match (if ?b then _ else _) with _ => _ end => destruct b end.
    + split; [split; auto|]. exists (f :: r). split; [apply beside_refl|]. repeat split; auto. cbn. constructor; auto. now apply upsert_in.
    + split; auto. repeat split; auto. cbn. constructor; auto. now apply upsert_in.
Qed.
Lemma mates_declare : forall E x x' l E', introduce E x x' E' -> mates E E E' (declare x l) (declare x' l).
Proof.
  intros E x x' l E' N. destruct N as [x|f r x x' N N'|f r x x' I]; [apply top_declare| |];
    intros s s' M; pose proof M as (S & F & C); unfold declare;
    destruct (stacks_local _ _ _ _ S) as (sc & sc' & q & q' & E1 & E2 & P & S'); rewrite E1, E2; unfold rbind; rewrite <- (paired_length _ _ _ P).
  - pose proof (mates_limit _ _ (length sc) x x' l (beside_refl (f :: r)) s s' M) as H.
    destruct (ensure_scope_index_limit _ x _ s) as [[] s1|c s1|w], (ensure_scope_index_limit _ x' _ s') as [[] s1'|c' s1'|w'];
      try contradiction; auto.
    destruct P as ((A & B) & P). rewrite !get_out, !upsert_out by congruence. cbn. destruct H as [_ (_ & F1 & C1)].
    split; auto. repeat split; auto. cbn. constructor; auto. apply paired_snoc; auto. split; auto.
  - pose proof (mates_limit _ _ (length sc) x x' l (beside_refl (f :: r)) s s' M) as H.
    destruct (ensure_scope_index_limit _ x _ s) as [[] s1|c s1|w], (ensure_scope_index_limit _ x' _ s') as [[] s1'|c' s1'|w'];
      try contradiction; auto.
    rewrite <- (proj1 (get_in _ _ _ _ _ P I)). destruct H as [_ (_ & F1 & C1)]. unfold is_in_global_scope. cbn [set_scopes scopes length].
    rewrite (proj1 (stacks_length _ _ _ S')).
    destruct (match scope_get sc x with None => _ | Some _ => _ end) as [i d].
    match goal with |- match (if ?b then _ else _) with _ => _ end => destruct b end.
    + split; [split; auto|]. exists (f :: r). split; [apply beside_refl|]. repeat split; auto. cbn. constructor; auto. now apply upsert_in.
    + split; auto. repeat split; auto. cbn. constructor; auto. now apply upsert_in.
Qed.

(** ** Outlines *)
Scheme alpha_mut := Minimality for alpha Sort Prop
with alpha_all_mut := Minimality for alpha_all Sort Prop
with alpha_function_mut := Minimality for alpha_function Sort Prop
with alpha_methods_mut := Minimality for alpha_methods Sort Prop.
Combined Scheme alpha_induction from alpha_mut, alpha_all_mut, alpha_function_mut, alpha_methods_mut.

Lemma introduce_beside : forall E x x' E', introduce E x x' E' -> beside E E'.
Proof. destruct 1; split; auto. Qed.
Lemma mates_params : forall E ps ps' E', introduce_all E ps ps' E' -> beside E E' /\
  mates E E E' (rmap (fun p => define (fst p) (snd p)) ps) (rmap (fun p => define (fst p) (snd p)) ps').
Proof.
  induction 1 as [E|E x x' l E1 ps ps' E2 H _ [B IH]].
  - split; [apply beside_refl|apply mates_ret].
  - pose proof (introduce_beside _ _ _ _ H) as B1. split; [eapply beside_trans; eauto|]. cbn [rmap].
    eapply mates_bind; [apply mates_define; exact H|]. intros a. cbn [fst snd].
    eapply mates_bind; [eapply mates_anchor; [exact IH|apply beside_sym; exact B1]|]. intros r. apply mates_ret.
Qed.
Lemma mates_this : forall E x x' l, (x = "this" <-> x' = "this") -> mates E E E (check_this x l) (check_this x' l).
Proof.
  intros E x x' l T. unfold check_this. eapply mates_bind; [apply mates_get_class|]. intros [| |]; try apply mates_ret.
  assert (Q : (x =? "this") = (x' =? "this")) by (apply Bool.eq_true_iff_eq; rewrite !String.eqb_eq; exact T).
  rewrite Q. destruct (x' =? "this"); [|apply mates_ret]. apply mates_fail; [split; auto|apply beside_refl].
Qed.
Lemma mates_own : forall E x x' l, meant E x x' -> mates E E E (check_own_initializer x l) (check_own_initializer x' l).
Proof.
  intros E x x' l N s s' M. unfold check_own_initializer. destruct E as [|f r].
  - cbn in N. subst x'. pose proof (mated_top _ _ M) as <-. destruct (scopes s) as [|sc q]; auto.
    assert (K : same_complaint (cause_at l x "Cannot read local variable in its own initializer.")
                  (cause_at l x "Cannot read local variable in its own initializer.") /\
                exists E1, beside nil E1 /\ mated E1 s s) by (split; [split; auto|exists nil; split; [apply beside_refl|auto]]).
    destruct (scope_get sc x) as [v|]; auto. destruct (v_state v); auto.
  - destruct (stacks_local _ _ _ _ (proj1 M)) as (sc & sc' & q & q' & E1 & E2 & P & S'). rewrite E1, E2.
    assert (G : scope_get sc x = scope_get sc' x').
    { destruct N as [I|(N & N' & _)]; [apply (get_in _ _ _ _ _ P I)|]. destruct P as ((A & B) & _). rewrite !get_out by congruence. auto. }
    rewrite <- G. destruct (scope_get sc x) as [v|]; auto. destruct (v_state v); auto.
    split; [split; auto|]. exists (f :: r). split; [apply beside_refl|auto].
Qed.
Lemma mates_one : forall A E EA E' (h : A -> cell) m m', mates E EA E' m m' -> mates E EA E' (one h m) (one h m').
Proof. intros. unfold one. eapply mates_bind; [eassumption|]. intros a. apply mates_ret. Qed.
Lemma mates_quiet : forall A E EA E' (m m' : R A), mates E EA E' m m' -> mates E EA E' (quiet m) (quiet m').
Proof. intros. unfold quiet. eapply mates_bind; [eassumption|]. intros a. apply mates_ret. Qed.
Lemma mates_define_super : forall A E EA (a : A) l,
  let m := fun s => match define "super" l s with
                    | ROk _ s1 => ROk a s1
                    | RErr c s1 => RErr c (end_scope s1)
                    | RPanic w => RPanic w
                    end in
  mates E EA ([("super", "super")] :: E) (rdo begin_scope ;; m) (rdo begin_scope ;; m).
Proof.
  intros A E EA a l m s s' (S & F & C). subst m. unfold rbind, begin_scope.
  rewrite (proj1 (stacks_length _ _ _ S)). destruct (_ <=? _)%N; auto.
  cbn. split; auto. repeat split; auto. cbn. constructor; auto. exact (paired_snoc nil nil nil "super" "super" _ paired_nil (fun x => x) (fun x => x)).
Qed.

Lemma alpha_follow :
  (forall E e e' E', alpha E e e' E' -> beside E E' /\ mates E E E' (follow e) (follow e')) /\
  (forall E es es' E', alpha_all E es es' E' -> beside E E' /\ mates E E E' (follow_all es) (follow_all es')) /\
  (forall E ps es ps' es', alpha_function E ps es ps' es' ->
     forall t, mates E E E (follow_function t ps (follow_all es)) (follow_function t ps' (follow_all es'))) /\
  (forall E ms ms', alpha_methods E ms ms' -> mates E E E (follow_methods ms) (follow_methods ms')).
Proof.
  apply alpha_induction.
  - intros E x x' l N T. split; [apply beside_refl|]. cbn. eapply mates_bind; [apply mates_this; auto|]. intros _.
    eapply mates_bind; [apply mates_own; auto|]. intros _. apply mates_one. apply mates_lookup; auto using beside_refl.
  - intros E x x' l N. split; [apply beside_refl|]. cbn. apply mates_one. apply mates_lookup; auto using beside_refl.
  - intros E l N. split; [apply beside_refl|]. cbn. eapply mates_bind with (E1 := E); [|intros _; apply mates_one; apply mates_lookup; auto using beside_refl].
    unfold check_super. eapply mates_bind; [apply mates_get_class|]. intros [| |]; try apply mates_ret;
      (apply mates_fail; [split; auto|apply beside_refl]).
  - intros E b l. split; [apply beside_refl|]. cbn. apply mates_quiet. unfold check_return.
    eapply mates_bind; [apply mates_get_fun|]. intros [| | |]; try apply mates_ret; [apply mates_fail; [split; auto|apply beside_refl]|].
    destruct b; cbn; [apply mates_ret|apply mates_fail; [split; auto|apply beside_refl]].
  - intros E x x' l E' N. split; [eapply introduce_beside; eauto|]. cbn. apply mates_one. now apply mates_declare.
  - intros E x x' l E' N. split; [eapply introduce_beside; eauto|]. cbn. apply mates_quiet. now apply mates_define.
  - intros E es es' f _ [_ IH]. split; [apply beside_refl|]. cbn. fold follow_all. eapply mates_scope; [exact IH|].
    intros f1 s s'. apply mated_end.
  - intros E ps ps' es es' _ IH. split; [apply beside_refl|]. exact (IH RPlain).
  - (* classes *)
    intros E x x' l E1 ms ms' N _ IH. pose proof (introduce_beside _ _ _ _ N) as B. split; auto.
    cbn [follow]. fold follow_all. fold follow_methods.
    eapply mates_bind; [apply mates_get_class|]. intros enc. eapply mates_bind; [apply mates_set_class|]. intros _.
    eapply mates_finally with (EA := E) (E' := E1); [|intros; now apply mated_class|intros E2 s s' B2 M; exists E2; split; auto; now apply mated_class].
    eapply mates_bind; [apply mates_define; exact N|]. intros _. eapply mates_bind; [apply mates_ret|]. intros a.
    eapply mates_bind; [apply mates_begin|]. intros _. eapply mates_bind; [|intros b; apply mates_ret].
    eapply mates_finally with (EA := nil :: E1) (E' := [("this", "this")] :: E1).
    + eapply mates_bind with (E1 := [("this", "this")] :: E1).
      * apply mates_define. exact (in_local nil E1 "this" "this" (fun x => x) (fun x => x)).
      * intros _. eapply mates_anchor; [exact IH|]. split; auto.
    + intros s s' M. eapply mated_end; eauto.
    + intros E2 s s' B2 M. destruct (beside_local _ _ _ B2) as (f1 & ->). exists E1. split; auto. eapply mated_end; eauto.
  - intros E x x' l own es es' E1 ms ms' N _ [_ IHe] _ IH. pose proof (introduce_beside _ _ _ _ N) as B. split; auto.
    cbn [follow]. fold follow_all. fold follow_methods.
    eapply mates_bind; [apply mates_get_class|]. intros enc. eapply mates_bind; [apply mates_set_class|]. intros _.
    eapply mates_finally with (EA := E) (E' := E1); [|intros; now apply mated_class|intros E2 s s' B2 M; exists E2; split; auto; now apply mated_class].
    eapply mates_bind; [apply mates_define; exact N|]. intros _.
    eapply mates_bind with (E1 := [("super", "super")] :: E1).
    + eapply mates_bind with (E1 := E1); [destruct own; [apply mates_fail; auto; split; auto|apply mates_ret]|]. intros _.
      eapply mates_bind; [eapply mates_anchor; [exact IHe|apply beside_sym; exact B]|]. intros a. apply mates_define_super.
    + intros a. eapply mates_bind; [apply mates_begin|]. intros _. eapply mates_bind; [|intros b; apply mates_ret].
      eapply mates_finally with (EA := nil :: [("super", "super")] :: E1) (E' := [("this", "this")] :: [("super", "super")] :: E1).
      * eapply mates_bind with (E1 := [("this", "this")] :: [("super", "super")] :: E1).
        -- apply mates_define. exact (in_local nil _ "this" "this" (fun x => x) (fun x => x)).
        -- intros _. eapply mates_anchor; [exact IH|]. split; auto.
      * intros s s' M. eapply mated_end. eapply mated_end; eauto.
      * intros E2 s s' B2 M. destruct (beside_local _ _ _ B2) as (f1 & ->). exists E1. split; auto.
        eapply mated_end. eapply mated_end; eauto.
  - intros E. split; [apply beside_refl|apply mates_ret].
  - intros E e e' E1 es es' E2 _ [B1 H1] _ [B2 H2]. split; [eapply beside_trans; eauto|].
    cbn. eapply mates_seq; [exact H1|]. eapply mates_anchor; [exact H2|]. now apply beside_sym.
  - intros E ps es ps' es' f f' P _ [_ IH] t. unfold follow_function. destruct (mates_params _ _ _ _ P) as [B Hp].
    eapply mates_bind; [apply mates_get_fun|]. intros enc. eapply mates_bind; [apply mates_set_fun|]. intros _.
    eapply mates_scope with (f := f').
    + eapply mates_bind; [exact Hp|]. intros _. eapply mates_anchor; [exact IH|]. now apply beside_sym.
    + intros f1 s s' M. apply mated_fun. eapply mated_end; eauto.
  - intros E. apply mates_ret.
  - intros E init ps es ps' es' ms ms' _ H1 _ H2. cbn. eapply mates_seq; [apply H1|exact H2].
Qed.

(** ** Programs *)
Definition only_globals (s : rstate) : Prop := exists g, scopes s = [g].
Lemma mated_same : forall s, only_globals s -> mated nil s s.
Proof. intros s (g & E). split; [|auto]. rewrite E. constructor. Qed.
Lemma mated_global : forall s s', mated nil s s' -> only_globals s.
Proof. intros s s' (S & _). inversion S as [g E1 E2 E3|]; subst. exists g. auto. Qed.
Lemma alpha_loop : forall l l', alpha_program l l' -> forall d d' errs errs' s, only_globals s ->
  flat_map cells d = flat_map cells d' -> Forall2 same_complaint errs errs' ->
  match resolve_loop l d errs s, resolve_loop l' d' errs' s with
  | Done (a, e, s1), Done (a', e', s2) => flat_map cells a = flat_map cells a' /\ Forall2 same_complaint e e' /\ s1 = s2
  | Panicked w, Panicked w' => w = w'
  | _, _ => False
  end.
Proof.
  induction 1 as [|st st' l l' H _ IH]; intros d d' errs errs' s G D Er; cbn [resolve_loop]; auto.
  pose proof (proj1 follows st s) as F. pose proof (proj1 follows st' s) as F'.
  pose proof (proj2 (proj1 (proj2 alpha_follow) _ _ _ _ H) s s (mated_same s G)) as M.
  destruct (follow_all (outline st) s) as [v u|c u|w], (follow_all (outline st') s) as [v' u'|c' u'|w']; try contradiction;
    destruct (resolve_statement st s) as [a s1|c1 s1|w1]; try contradiction;
    destruct (resolve_statement st' s) as [a' s1'|c1' s1'|w1']; try contradiction.
  - destruct F as [F ->], F' as [F' ->], M as [<- M]. pose proof (mated_top _ _ M) as <-. apply IH; auto; [eapply mated_global; eauto|].
    rewrite !flat_map_app. cbn. rewrite F, F', D. reflexivity.
  - destruct F as [-> ->], F' as [-> ->], M as (Sc & E1 & B & M). destruct E1; [|destruct B; discriminate].
    pose proof (mated_top _ _ M) as <-. apply IH; auto; [eapply mated_global; eauto|]. apply Forall2_app; auto.
  - congruence.
Qed.
Theorem alpha_session : forall l l' s, alpha_program l l' -> only_globals s ->
  match resolver_resolve l s, resolver_resolve l' s with
  | Done (Ok a, s1), Done (Ok a', s2) => flat_map cells a = flat_map cells a' /\ s1 = s2
  | Done (Err e, s1), Done (Err e', s2) => Forall2 same_complaint e e' /\ s1 = s2
  | Panicked w, Panicked w' => w = w'
  | _, _ => False
  end.
Proof.
  intros l l' s A G. unfold resolver_resolve.
  pose proof (alpha_loop l l' A nil nil nil nil s G eq_refl (Forall2_nil _)) as H.
  destruct (resolve_loop l nil nil s) as [[[d e] s1]| | |], (resolve_loop l' nil nil s) as [[[d' e'] s1']| | |];
    cbn; try contradiction; auto.
  destruct H as (D & Er & ->). destruct Er; auto.
Qed.
Theorem alpha_resolve : forall l l', alpha_program l l' ->
  match resolve l, resolve l' with
  | Done (Ok a), Done (Ok a') => flat_map cells a = flat_map cells a'
  | Done (Err e), Done (Err e') => Forall2 same_complaint e e'
  | Panicked w, Panicked w' => w = w'
  | _, _ => False
  end.
Proof.
  intros l l' A. unfold resolve. destruct resolver_new as [s| | |] eqn:N; try (vm_compute in N; discriminate). cbn [obind].
  assert (G : only_globals s) by (vm_compute in N; injection N as <-; exists nil; reflexivity).
  pose proof (alpha_session l l' s A G) as H.
  destruct (resolver_resolve l s) as [[[a|e] s1]| | |], (resolver_resolve l' s) as [[[a'|e'] s1']| | |]; cbn in *;
    try contradiction; tauto.
Qed.

(** ** Programs anywhere in the text *)
Lemma complaints_grounds : forall e e', Forall2 same_complaint e e' -> same_grounds e e'.
Proof. induction 1 as [|c c' e e' [_ H] _ IH]; constructor; auto. Qed.
Lemma messages_grounds : forall a b c d, same_messages a b -> same_grounds b c -> same_messages c d -> same_grounds a d.
Proof.
  unfold same_messages, same_grounds. intros a b c d H. revert c d.
  induction H as [|x y a b E _ IH]; intros c d G K; inversion G; subst; inversion K; subst; constructor; eauto.
  unfold same_message in *. intuition congruence.
Qed.
Theorem alpha_anywhere : forall l l' s, alpha_program (map unplaced l) (map unplaced l') -> only_globals s ->
  grounds_alike (resolver_resolve l s) (resolver_resolve l' s).
Proof.
  intros l l' s A G. pose proof (alpha_session _ _ s A G) as H.
  pose proof (placed_result l (map unplaced l) s (eq_sym (unplaced_again l))) as H1.
  pose proof (placed_result (map unplaced l') l' s (unplaced_again l')) as H2.
  destruct (resolver_resolve l s) as [[[a|e] s1]| | |], (resolver_resolve (map unplaced l) s) as [[[b|f] s2]| | |],
    (resolver_resolve (map unplaced l') s) as [[[b'|f'] s3]| | |], (resolver_resolve l' s) as [[[a'|e'] s4]| | |];
    cbn in *; try contradiction; intuition try congruence.
  eapply messages_grounds; eauto using complaints_grounds.
Qed.
