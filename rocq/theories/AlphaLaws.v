(** Being the same up to local names is an equivalence (C105). *)
From Verif Require Import Base F64 Token Ast Resolver AstInd SpecOutline SpecAlpha Alpha.
Local Open Scope string_scope.
Local Open Scope list_scope.

Lemma alpha_app : forall E a a' E1, alpha_all E a a' E1 -> forall b b' E2, alpha_all E1 b b' E2 -> alpha_all E (a ++ b) (a' ++ b') E2.
Proof.
  intros E a. revert E. induction a as [|e a IH]; intros E a' E1 H b b' E2 K; inversion H; subst; auto.
  cbn. eapply al_cons; eauto.
Qed.
Lemma alpha_one : forall E e e' E1, alpha E e e' E1 -> alpha_all E [e] [e'] E1.
Proof. intros. eapply al_cons; eauto. apply al_nil. Qed.

(** ** Every program is the same as itself *)
Definition diagonal (E : partners) : Prop := Forall (fun f => map fst f = map snd f) E.
Lemma diagonal_in : forall f x, map fst f = map snd f -> In x (map (@fst string string) f) -> In (x, x) f.
Proof.
  induction f as [|[a b] f IH]; cbn; intros x D I; [destruct I|]. injection D as -> D. destruct I as [->|I]; auto.
Qed.
Lemma meant_diagonal : forall E x, diagonal E -> meant E x x.
Proof.
  induction 1 as [|f E D _ IH]; cbn; auto. destruct (in_dec string_dec x (map fst f)) as [I|N].
  - left. now apply diagonal_in.
  - right. rewrite <- D. auto.
Qed.
Lemma introduce_diagonal : forall E x, diagonal E -> exists E', introduce E x x E' /\ diagonal E' /\ beside E E'.
Proof.
  destruct 1 as [|f E D H].
  - exists nil. repeat split; constructor.
  - destruct (in_dec string_dec x (map fst f)) as [I|N].
    + exists (f :: E). repeat split; [apply in_again; now apply diagonal_in|constructor; auto].
    + exists ((f ++ [(x, x)]) :: E). repeat split; [apply in_local; auto; now rewrite <- D|].
      constructor; auto. rewrite !map_app, D. reflexivity.
Qed.
Definition grows (es : list event) : Prop := forall E, diagonal E -> exists E', alpha_all E es es E' /\ diagonal E' /\ beside E E'.
Definition stays (es : list event) : Prop := forall E, diagonal E -> alpha_all E es es E.
Lemma stays_grows : forall es, stays es -> grows es.
Proof. intros es H E D. exists E. repeat split; auto. Qed.
Lemma grows_app : forall a b, grows a -> grows b -> grows (a ++ b).
Proof.
  intros a b Ha Hb E D. destruct (Ha E D) as (E1 & A1 & D1 & B1). destruct (Hb E1 D1) as (E2 & A2 & D2 & B2).
  exists E2. refine (conj _ (conj D2 _)); [eapply alpha_app; eauto|eapply beside_trans; eauto].
Qed.
Lemma stays_app : forall a b, stays a -> stays b -> stays (a ++ b).
Proof. intros a b Ha Hb E D. eapply alpha_app; eauto. Qed.
Lemma grows_flat : forall A (f : A -> list event) l, Forall (fun x => grows (f x)) l -> grows (flat_map f l).
Proof. induction 1; cbn; [intros E D; exists E; repeat split; auto; apply al_nil|now apply grows_app]. Qed.
Lemma stays_flat : forall A (f : A -> list event) l, Forall (fun x => stays (f x)) l -> stays (flat_map f l).
Proof. induction 1; cbn; [intros E D; apply al_nil|now apply stays_app]. Qed.
Lemma stays_nil : stays nil.
Proof. intros E D. apply al_nil. Qed.
Lemma grows_one : forall e, (forall E, diagonal E -> exists E', alpha E e e E' /\ diagonal E' /\ beside E E') -> grows [e].
Proof. intros e H E D. destruct (H E D) as (E' & A & K). exists E'. split; auto. now apply alpha_one. Qed.
Lemma grows_declares : forall x l, grows [Declares x l].
Proof. intros x l. apply grows_one. intros E D. destruct (introduce_diagonal E x D) as (E' & A & K). exists E'. split; auto. now apply al_declares. Qed.
Lemma grows_defines : forall x l, grows [Defines x l].
Proof. intros x l. apply grows_one. intros E D. destruct (introduce_diagonal E x D) as (E' & A & K). exists E'. split; auto. now apply al_defines. Qed.
Lemma params_diagonal : forall ps E, diagonal E -> exists E', introduce_all E ps ps E' /\ diagonal E' /\ beside E E'.
Proof.
  induction ps as [|[x l] ps IH]; intros E D.
  - exists E. repeat split; auto. apply ia_nil.
  - destruct (introduce_diagonal E x D) as (E1 & A1 & D1 & B1). destruct (IH E1 D1) as (E2 & A2 & D2 & B2).
    exists E2. refine (conj _ (conj D2 _)); [eapply ia_cons; eauto|eapply beside_trans; eauto].
Qed.
Definition itself (f : fun_def) : Prop :=
  match f with FunDef ps b _ _ => forall E, diagonal E ->
    alpha_function E (map parameter ps) (flat_map outline b) (map parameter ps) (flat_map outline b) end.
Lemma itself_event : forall ps b, (forall E, diagonal E -> alpha_function E ps b ps b) -> stays [InFunction ps b].
Proof. intros ps b H E D. apply alpha_one. apply al_function. auto. Qed.

Lemma alpha_itself : (forall st, grows (outline st)) /\ (forall e, stays (expr_outline e)) /\
  (forall c, grows (outline (SClass c))) /\ (forall f, itself f).
Proof.
  assert (Dn : forall E, diagonal E -> diagonal (nil :: E)) by (intros E D; constructor; auto).
  apply tree_ind; try (intros; exact stays_nil); try (intros; exact (stays_grows _ stays_nil)).
  - intros b H. apply grows_one. intros E D. exists E. repeat split; auto.
    destruct (grows_flat _ outline b H _ (Dn _ D)) as (E1 & A & D1 & B). destruct (beside_local _ _ _ B) as (f & ->).
    eapply al_block; eauto.
  - auto.
  - intros e H. now apply stays_grows.
  - intros n [ps b ft l] H. exact (grows_app _ _ (grows_defines n l) (stays_grows _ (itself_event _ _ H))).
  - intros c t e Hc Ht He. cbn. apply grows_app; [now apply stays_grows|]. apply grows_app; auto.
    destruct e; auto. exact (stays_grows _ stays_nil).
  - intros e H. now apply stays_grows.
  - intros e l H. change (grows ([Returns (is_nil e) l] ++ expr_outline e)). apply grows_app; [|now apply stays_grows].
    apply stays_grows. intros E D. apply alpha_one. apply al_returns.
  - intros x s e l H. change (grows ([Declares x l] ++ expr_outline e ++ [Defines x l])).
    apply grows_app; [apply grows_declares|]. apply grows_app; [now apply stays_grows|apply grows_defines].
  - intros c b Hc Hb. apply grows_app; auto. now apply stays_grows.
  - intros c b i Hc Hb Hi. apply grows_app; [now apply stays_grows|]. apply grows_app; auto. now apply stays_grows.
  - intros x v e l H. apply stays_app; auto. intros E D. apply alpha_one. apply al_writes. now apply meant_diagonal.
  - intros f args l Hf Ha. apply stays_app; auto. now apply stays_flat.
  - intros a op b l Ha Hb. now apply stays_app.
  - intros [ps b ft l] H. exact (itself_event _ _ H).
  - auto.
  - intros e i l He Hi. now apply stays_app.
  - auto.
  - intros es H. now apply stays_flat.
  - intros m H. cbn. apply stays_flat. eapply Forall_impl; [|exact H]. intros [k e]. auto.
  - intros a op b Ha Hb. now apply stays_app.
  - intros o p v l Ho Hv. now apply stays_app.
  - intros a i v l Ha Hi Hv. apply stays_app; auto. now apply stays_app.
  - intros v m l E D. apply alpha_one. apply al_supers. now apply meant_diagonal.
  - intros x v l E D. apply alpha_one. apply al_reads; [now apply meant_diagonal|tauto].
  - auto.
  - intros n s ms l Hs Hm. cbn. apply grows_one. intros E D.
    destruct (introduce_diagonal E n D) as (E1 & A & D1 & B). exists E1. refine (conj _ (conj D1 B)).
    assert (M : forall E2, diagonal E2 -> alpha_methods E2
      (map (fun m => match m with NamedFun n (FunDef ps b _ _) => (n =? "init", map parameter ps, flat_map outline b) end) ms)
      (map (fun m => match m with NamedFun n (FunDef ps b _ _) => (n =? "init", map parameter ps, flat_map outline b) end) ms)).
    { intros E2 D2. clear - Hm D2. induction Hm as [|[k [ps b ft fl]] ms H _ IH]; cbn; [apply al_no_method|].
      apply al_method; [exact (H E2 D2)|auto]. }
    destruct s as [e|].
    + eapply al_subclass; [exact A|exact (Hs E1 D1)|]. apply M. repeat (constructor; auto).
    + eapply al_class; [exact A|]. apply M. constructor; auto.
  - intros ps b ft l H E D. destruct (params_diagonal (map parameter ps) _ (Dn _ D)) as (E1 & A & D1 & B).
    destruct (beside_local _ _ _ B) as (f & ->). destruct (grows_flat _ outline b H _ D1) as (E2 & A2 & D2 & B2).
    destruct (beside_local _ _ _ B2) as (f2 & ->). eapply al_fun; eauto.
Qed.
Theorem alpha_refl : forall l, alpha_program l l.
Proof.
  induction l as [|st l IH]; constructor; auto. destruct (proj1 alpha_itself st nil (Forall_nil _)) as (E & A & _ & B).
  destruct E; [exact A|destruct B; discriminate].
Qed.

(** ** Exchanged *)
Definition turn (p : string * string) : string * string := (snd p, fst p).
Definition turned (E : partners) : partners := map (map turn) E.
Lemma turn_fst : forall f, map fst (map turn f) = map snd f.
Proof. intros f. rewrite map_map. reflexivity. Qed.
Lemma turn_snd : forall f, map snd (map turn f) = map fst f.
Proof. intros f. rewrite map_map. reflexivity. Qed.
Lemma turn_in : forall f x y, In (x, y) f -> In (y, x) (map turn f).
Proof. intros f x y I. apply (in_map turn) in I. exact I. Qed.
Lemma meant_turned : forall E x y, meant E x y -> meant (turned E) y x.
Proof.
  induction E as [|f E IH]; cbn; intros x y H; auto. rewrite turn_fst, turn_snd.
  destruct H as [I|(N & N' & H)]; [left; now apply turn_in|right; auto].
Qed.
Lemma introduce_turned : forall E x y E', introduce E x y E' -> introduce (turned E) y x (turned E').
Proof.
  destruct 1; cbn.
  - constructor.
  - rewrite map_app. apply in_local; [rewrite turn_fst|rewrite turn_snd]; auto.
  - apply in_again. now apply turn_in.
Qed.
Lemma introduce_all_turned : forall E ps ps' E', introduce_all E ps ps' E' -> introduce_all (turned E) ps' ps (turned E').
Proof. induction 1; econstructor; eauto using introduce_turned. Qed.
Lemma alpha_turned :
  (forall E e e' E', alpha E e e' E' -> alpha (turned E) e' e (turned E')) /\
  (forall E es es' E', alpha_all E es es' E' -> alpha_all (turned E) es' es (turned E')) /\
  (forall E ps es ps' es', alpha_function E ps es ps' es' -> alpha_function (turned E) ps' es' ps es) /\
  (forall E ms ms', alpha_methods E ms ms' -> alpha_methods (turned E) ms' ms).
Proof.
  apply alpha_induction; intros.
  - apply al_reads; [now apply meant_turned|tauto].
  - apply al_writes. now apply meant_turned.
  - apply al_supers. now apply meant_turned.
  - apply al_returns.
  - apply al_declares. now apply introduce_turned.
  - apply al_defines. now apply introduce_turned.
  - eapply al_block. eassumption.
  - now apply al_function.
  - eapply al_class; [apply introduce_turned; eassumption|assumption].
  - eapply al_subclass; [apply introduce_turned; eassumption|assumption|assumption].
  - apply al_nil.
  - eapply al_cons; eassumption.
  - exact (al_fun _ _ _ _ _ _ _ (introduce_all_turned _ _ _ _ H) H1).
  - apply al_no_method.
  - now apply al_method.
Qed.
Theorem alpha_sym : forall l l', alpha_program l l' -> alpha_program l' l.
Proof. induction 1 as [|st st' l l' H _ IH]; constructor; auto. exact (proj1 (proj2 alpha_turned) _ _ _ _ H). Qed.

(** ** Composed *)
Definition compose (f g : list (string * string)) : list (string * string) := combine (map fst f) (map snd g).
Definition fitting (f g : list (string * string)) : Prop := map snd f = map fst g /\ NoDup (map snd f).
Fixpoint composed (E G : partners) : partners :=
  match E, G with f :: E, g :: G => compose f g :: composed E G | _, _ => nil end.
Definition fits (E G : partners) : Prop := Forall2 fitting E G.
Lemma compose_in : forall f g x y z, fitting f g -> In (x, y) f -> In (y, z) g -> In (x, z) (compose f g).
Proof.
  induction f as [|[a b] f IH]; intros [|[c d] g] x y z [M N] I J; try destruct I; try discriminate; cbn in *;
    injection M as <- M; inversion N as [|? ? Nb Nf]; subst.
  - injection H as <- <-. destruct J as [J|J]; [injection J as <-; auto|].
    apply (in_map fst) in J. rewrite M in Nb. contradiction.
  - destruct J as [J|J]; [injection J as <- <-; apply (in_map snd) in H; contradiction|].
    right. apply (IH g x y z); auto. split; auto.
Qed.
Lemma compose_fst : forall f g, fitting f g -> map fst (compose f g) = map fst f.
Proof.
  intros f g [M _]. unfold compose. apply (f_equal (@List.length _)) in M. rewrite !map_length in M. revert g M.
  induction f as [|[a b] f IH]; intros [|[c d] g] M; try discriminate; auto. cbn. f_equal. apply IH. cbn in M. congruence.
Qed.
Lemma compose_snd : forall f g, fitting f g -> map snd (compose f g) = map snd g.
Proof.
  intros f g [M _]. unfold compose. apply (f_equal (@List.length _)) in M. rewrite !map_length in M. revert g M.
  induction f as [|[a b] f IH]; intros [|[c d] g] M; try discriminate; auto. cbn. f_equal. apply IH. cbn in M. congruence.
Qed.
Lemma compose_snoc : forall f g x y z, fitting f g -> compose (f ++ [(x, y)]) (g ++ [(y, z)]) = compose f g ++ [(x, z)].
Proof.
  intros f g x y z [M _]. unfold compose. rewrite !map_app. cbn. apply (f_equal (@List.length _)) in M. rewrite !map_length in M. revert g M.
  induction f as [|[a b] f IH]; intros [|[c d] g] M; try discriminate; auto. cbn. f_equal. apply IH. cbn in M. congruence.
Qed.
Lemma meant_composed : forall E G, fits E G -> forall x y z, meant E x y -> meant G y z -> meant (composed E G) x z.
Proof.
  induction 1 as [|f g E G Hf _ IH]; cbn; intros x y z A B; [congruence|].
  destruct A as [I|(N & N' & A)], B as [J|(K & K' & B)].
  - left. eapply compose_in; eauto.
  - apply (in_map snd) in I. rewrite (proj1 Hf) in I. contradiction.
  - apply (in_map fst) in J. rewrite <- (proj1 Hf) in J. contradiction.
  - right. rewrite compose_fst, compose_snd by auto. eauto.
Qed.
Lemma introduce_composed : forall E x y E', introduce E x y E' -> forall G z G', fits E G -> introduce G y z G' ->
  fits E' G' /\ introduce (composed E G) x z (composed E' G').
Proof.
  destruct 1 as [x|f r x y N N'|f r x y I]; intros G z G' F K; inversion F as [|f0 g E0 G0 Hf Fr]; subst;
    inversion K as [|f0 r0 x0 y0 K1 K2|f0 r0 x0 y0 J]; subst.
  - split; constructor.
  - split; [constructor; auto|].
    + destruct Hf as [M D]. split; [rewrite !map_app, M; reflexivity|]. rewrite map_app. now apply nodup_snoc.
    + cbn. rewrite compose_snoc by auto. apply in_local; [rewrite compose_fst|rewrite compose_snd]; auto.
  - apply (in_map fst) in J. rewrite <- (proj1 Hf) in J. contradiction.
  - apply (in_map snd) in I. rewrite (proj1 Hf) in I. contradiction.
  - split; [constructor; auto|]. cbn. apply in_again. eapply compose_in; eauto.
Qed.
Lemma introduce_all_composed : forall E ps ps' E', introduce_all E ps ps' E' -> forall G ps'' G', fits E G ->
  introduce_all G ps' ps'' G' -> fits E' G' /\ introduce_all (composed E G) ps ps'' (composed E' G').
Proof.
  induction 1 as [E|E x y l E1 ps ps' E2 H _ IH]; intros G ps'' G' F K; inversion K; subst.
  - split; auto. apply ia_nil.
  - destruct (introduce_composed _ _ _ _ H _ _ _ F ltac:(eassumption)) as [F1 A1].
    destruct (IH _ _ _ F1 ltac:(eassumption)) as [F2 A2]. split; auto. eapply ia_cons; eauto.
Qed.
Lemma fitting_nil : fitting nil nil.
Proof. split; constructor. Qed.
Lemma fitting_self : forall x, fitting [(x, x)] [(x, x)].
Proof. intros x. split; [auto|]. repeat constructor. auto. Qed.
Lemma alpha_composed :
  (forall E e e' E', alpha E e e' E' -> forall G e'' G', fits E G -> alpha G e' e'' G' ->
     fits E' G' /\ alpha (composed E G) e e'' (composed E' G')) /\
  (forall E es es' E', alpha_all E es es' E' -> forall G es'' G', fits E G -> alpha_all G es' es'' G' ->
     fits E' G' /\ alpha_all (composed E G) es es'' (composed E' G')) /\
  (forall E ps es ps' es', alpha_function E ps es ps' es' -> forall G ps'' es'', fits E G -> alpha_function G ps' es' ps'' es'' ->
     alpha_function (composed E G) ps es ps'' es'') /\
  (forall E ms ms', alpha_methods E ms ms' -> forall G ms'', fits E G -> alpha_methods G ms' ms'' ->
     alpha_methods (composed E G) ms ms'').
Proof.
  apply alpha_induction.
  - intros E x y l M T G e'' G' F K. inversion K; subst. split; auto. apply al_reads; [eapply meant_composed; eauto|tauto].
  - intros E x y l M G e'' G' F K. inversion K; subst. split; auto. apply al_writes. eapply meant_composed; eauto.
  - intros E l M G e'' G' F K. inversion K; subst. split; auto. apply al_supers. eapply meant_composed; eauto.
  - intros E b l G e'' G' F K. inversion K; subst. split; auto. apply al_returns.
  - intros E x y l E' N G e'' G' F K. inversion K; subst.
    destruct (introduce_composed _ _ _ _ N _ _ _ F ltac:(eassumption)). split; auto. now apply al_declares.
  - intros E x y l E' N G e'' G' F K. inversion K; subst.
    destruct (introduce_composed _ _ _ _ N _ _ _ F ltac:(eassumption)). split; auto. now apply al_defines.
  - intros E es es' f _ IH G e'' G' F K. inversion K; subst. split; auto.
    destruct (IH (nil :: _) _ _ (Forall2_cons _ _ fitting_nil F) ltac:(eassumption)) as [_ A]. eapply al_block. exact A.
  - intros E ps ps' es es' _ IH G e'' G' F K. inversion K; subst. split; auto. apply al_function. now apply IH.
  - intros E x y l E1 ms ms' N _ IH G e'' G' F K. inversion K; subst.
    destruct (introduce_composed _ _ _ _ N _ _ _ F ltac:(eassumption)) as [F1 A1]. split; auto. eapply al_class; [exact A1|].
    exact (IH _ _ (Forall2_cons _ _ (fitting_self "this") F1) ltac:(eassumption)).
  - intros E x y l own es es' E1 ms ms' N _ IHe _ IH G e'' G' F K. inversion K; subst.
    destruct (introduce_composed _ _ _ _ N _ _ _ F ltac:(eassumption)) as [F1 A1].
    destruct (IHe _ _ _ F1 ltac:(eassumption)) as [_ A2]. split; auto. eapply al_subclass; [exact A1|exact A2|].
    exact (IH _ _ (Forall2_cons _ _ (fitting_self "this") (Forall2_cons _ _ (fitting_self "super") F1)) ltac:(eassumption)).
  - intros E G es'' G' F K. inversion K; subst. split; auto. apply al_nil.
  - intros E e e' E1 es es' E2 _ IH1 _ IH2 G es'' G' F K. inversion K; subst.
    destruct (IH1 _ _ _ F ltac:(eassumption)) as [F1 A1]. destruct (IH2 _ _ _ F1 ltac:(eassumption)) as [F2 A2].
    split; auto. eapply al_cons; eauto.
  - intros E ps es ps' es' f f' P _ IH G ps'' es'' F K. inversion K; subst.
    destruct (introduce_all_composed _ _ _ _ P _ _ _ (Forall2_cons _ _ fitting_nil F) ltac:(eassumption)) as [F1 A1].
    destruct (IH _ _ _ F1 ltac:(eassumption)) as [F2 A2]. eapply al_fun; [exact A1|exact A2].
  - intros E G ms'' F K. inversion K; subst. apply al_no_method.
  - intros E init ps es ps' es' ms ms' _ IH1 _ IH2 G ms'' F K. inversion K; subst. apply al_method; auto.
Qed.
Theorem alpha_trans : forall l l' l'', alpha_program l l' -> alpha_program l' l'' -> alpha_program l l''.
Proof.
  intros l l' l'' H. revert l''. induction H as [|st st' l l' H _ IH]; intros l'' K; inversion K; subst; constructor; [|now apply IH].
  exact (proj2 (proj1 (proj2 alpha_composed) _ _ _ _ H nil _ nil (Forall2_nil _) ltac:(eassumption))).
Qed.
Theorem alpha_equivalence : (forall l, alpha_program l l) /\ (forall l l', alpha_program l l' -> alpha_program l' l) /\
  (forall l l' l'', alpha_program l l' -> alpha_program l' l'' -> alpha_program l l'').
Proof. exact (conj alpha_refl (conj alpha_sym alpha_trans)). Qed.
