(** The grammar does not look at positions: similar tokens derive the same
    trees, up to positions. *)
From Verif Require Import Base F64 Token Ast SpecPlace SpecGrammar.

Definition words (i j : list token) : Prop := Forall2 same_word i j.

Definition unplaced_val (v : val) : val :=
  match v with
  | VE e => VE (unplaced_expr e)
  | VEs es => VEs (map unplaced_expr es)
  | VM m => VM (map (fun kv => match kv with (k, e) => (k, unplaced_expr e) end) m)
  | VPs ps => VPs (map (fun p => mkParam (p_name p) no_place) ps)
  | VF f => VF (unplaced_fun f)
  | VS st => VS (unplaced st)
  | VO o => VO (option_map unplaced o)
  | VOE o => VOE (option_map unplaced_expr o)
  | VSs l => VSs (map unplaced l)
  | VMs l => VMs (map unplaced_named l)
  end.
Definition unplaced_sym (N : sym) : sym :=
  match N with
  | BinaryTail n e => BinaryTail n (unplaced_expr e)
  | CallTail e => CallTail (unplaced_expr e)
  | Function _ => Function no_place
  | N => N
  end.

Lemma words_sym i j : words i j -> words j i.
Proof.
  induction 1 as [|t t' i j (A & B & C & D) H IH]; constructor; auto.
  repeat split; auto. intros I. symmetry. apply D. now rewrite A.
Qed.
Lemma words_refl i : words i i.
Proof. induction i; constructor; auto. repeat split; auto. Qed.
Lemma words_cons t i j : words (t :: i) j -> exists t' j', j = t' :: j' /\ same_word t t' /\ words i j'.
Proof. inversion 1; subst. eauto. Qed.
Lemma words_starts ks i j : words i j -> starts ks i -> starts ks j.
Proof. destruct 1 as [|t t' ? ? (A & _)]; cbn; auto. now rewrite A. Qed.
Lemma words_not ks i j : words i j -> ~ starts ks i -> ~ starts ks j.
Proof. intros W N H. apply N. eapply words_starts; [|exact H]. now apply words_sym. Qed.
Lemma words_token k i r j : words i j -> token_then k i r -> exists s, token_then k j s /\ words r s.
Proof.
  intros W (t & -> & K). apply words_cons in W. destruct W as (t' & j' & -> & (A & _) & W).
  exists j'. split; auto. exists t'. split; auto. congruence.
Qed.
Lemma words_paren i r j : words i j -> paren_then i r -> exists s, paren_then j s /\ words r s.
Proof.
  intros W [H|H]; destruct (words_token _ _ _ _ W H) as (s & ? & ?); exists s; split; auto.
  - now left. - now right.
Qed.
Lemma words_optional k i r j : words i j -> optional k i r -> exists s, optional k j s /\ words r s.
Proof.
  intros W H. inversion H; subst.
  - apply words_cons in W. destruct W as (t' & j' & -> & (A & _) & W).
    exists j'. split; auto. constructor. congruence.
  - exists j. split; auto. constructor. eapply words_not; eauto.
Qed.
Lemma words_name t i r j : words i j -> name_then t i r ->
  exists t' s, name_then t' j s /\ words r s /\ t_lexeme t = t_lexeme t'.
Proof.
  intros W (-> & K). apply words_cons in W. destruct W as (t' & j' & -> & (A & _ & _ & B) & W).
  exists t', j'. repeat split; auto; [congruence|]. apply B. rewrite K. now left.
Qed.
Lemma words_opens k i r j : words i j -> opens k i r -> exists s, opens k j s /\ words r s.
Proof.
  intros W H. inversion H; subst; apply words_cons in W; destruct W as (t' & j' & -> & (A & _) & W).
  - apply words_cons in W. destruct W as (u' & j'' & -> & (A' & _) & W).
    exists j''. split; auto. constructor; congruence.
  - exists j'. split; auto. constructor. congruence.
Qed.
Lemma words_entry i j : words i j -> entry_here i -> entry_here j.
Proof.
  intros W (t & c & r & -> & I & K).
  apply words_cons in W. destruct W as (t' & j' & -> & (A & _) & W).
  apply words_cons in W. destruct W as (u' & j'' & -> & (A' & _) & W).
  exists t', u', j''. rewrite <- A, <- A'. auto.
Qed.
Lemma words_separator i j r : words i j -> separator i r -> exists s, separator j s /\ words r s.
Proof.
  intros W [H|[H E]]; destruct (words_token _ _ _ _ W H) as (s & T & W'); exists s; split; auto.
  - now left.
  - right. split; auto. destruct E as [E|E]; [left; eapply words_entry|right; eapply words_starts]; eauto.
Qed.
Lemma words_no_separator i j : words i j -> (forall r, ~ separator i r) -> forall r, ~ separator j r.
Proof.
  intros W H r S. apply words_sym in W. destruct (words_separator _ _ _ W S) as (s & S' & _).
  exact (H s S').
Qed.
Lemma word_key t t' k : same_word t t' -> key_of t k -> key_of t' k.
Proof.
  intros (A & B & _ & D) [[K E]|[K E]]; [left|right]; split; try congruence.
  rewrite E. apply D. rewrite K. now left.
Qed.
Lemma words_no_operator n i j : words i j -> no_operator n i -> no_operator n j.
Proof. destruct 1 as [|t t' ? ? (A & _)]; cbn; auto. now rewrite A. Qed.

(** Trees. *)
Lemma operator_unplaced n k f a a' l l' b b' :
  operator n k = Some f -> unplaced_expr a = unplaced_expr a' -> unplaced_expr b = unplaced_expr b' ->
  unplaced_expr (f a l b) = unplaced_expr (f a' l' b').
Proof.
  intros H A B. do 6 (destruct n as [|n]; [destruct k; cbn in H; try discriminate H;
    injection H as <-; cbn; congruence|]). destruct k; discriminate H.
Qed.
Lemma assigned_unplaced e e' v v' l l' x :
  assigned e v l = Some x -> unplaced_expr e = unplaced_expr e' -> unplaced_expr v = unplaced_expr v' ->
  exists x', assigned e' v' l' = Some x' /\ unplaced_expr x = unplaced_expr x'.
Proof.
  intros H E V. destruct e; cbn in H; try discriminate H; destruct e'; cbn in E; try discriminate E;
    injection E; intros; subst; cbn.
  - injection H as <-. eexists. split; [reflexivity|]. cbn. congruence.
  - injection H as <-. eexists. split; [reflexivity|]. cbn. congruence.
  - destruct (String.eqb _ _); [discriminate|]. injection H as <-.
    eexists. split; [reflexivity|]. cbn. congruence.
Qed.
Lemma keys_unplaced (m m' : list (string * expr)) :
  map (fun kv => match kv with (k, e) => (k, unplaced_expr e) end) m =
  map (fun kv => match kv with (k, e) => (k, unplaced_expr e) end) m' -> map fst m = map fst m'.
Proof.
  revert m'. induction m as [|[k e] m IH]; destruct m' as [|[k' e'] m']; cbn; intros H;
    try discriminate; auto.
  injection H as -> _ H. f_equal. auto.
Qed.
Lemma kind_unplaced k f f' :
  unplaced_fun f = unplaced_fun f' -> unplaced_fun (with_kind k f) = unplaced_fun (with_kind k f').
Proof. destruct f, f'; cbn; congruence. Qed.
Lemma for_unplaced i i' c c' n n' s s' :
  option_map unplaced i = option_map unplaced i' -> unplaced_expr c = unplaced_expr c' ->
  option_map unplaced_expr n = option_map unplaced_expr n' -> unplaced s = unplaced s' ->
  unplaced (for_tree i c n s) = unplaced (for_tree i' c' n' s').
Proof.
  destruct i, i', n, n'; cbn; intros; try discriminate; congruence.
Qed.

Ltac carry :=
  match goal with
  | W : words (_ :: _) ?j |- _ =>
    let t := fresh "t" in let j' := fresh "j" in let A := fresh "A" in
    apply words_cons in W; destruct W as (t & j' & W & A & ?); subst j
  | W : words ?i ?j, H : token_then _ ?i _ |- _ =>
    destruct (words_token _ _ _ _ W H) as (? & ? & ?); clear H
  | W : words ?i ?j, H : paren_then ?i _ |- _ =>
    destruct (words_paren _ _ _ W H) as (? & ? & ?); clear H
  | W : words ?i ?j, H : optional _ ?i _ |- _ =>
    destruct (words_optional _ _ _ _ W H) as (? & ? & ?); clear H
  | W : words ?i ?j, H : name_then _ ?i _ |- _ =>
    destruct (words_name _ _ _ _ W H) as (? & ? & ? & ? & ?); clear H
  | W : words ?i ?j, H : opens _ ?i _ |- _ =>
    destruct (words_opens _ _ _ _ W H) as (? & ? & ?); clear H
  | W : words ?i ?j, H : separator ?i _ |- _ =>
    destruct (words_separator _ _ _ W H) as (? & ? & ?); clear H
  | W : words ?i ?j, H : forall r, ~ separator ?i r |- _ =>
    pose proof (words_no_separator _ _ W H); clear H
  | W : words ?i ?j, H : entry_here ?i |- _ => pose proof (words_entry _ _ W H); clear H
  | W : words ?i ?j, H : ~ entry_here ?i |- _ =>
    assert (~ entry_here j) by
      (let X := fresh in intros X; apply H; exact (words_entry _ _ (words_sym _ _ W) X)); clear H
  | W : words ?i ?j, H : no_operator _ ?i |- _ => pose proof (words_no_operator _ _ _ W H); clear H
  | W : words ?i ?j, H : ~ starts _ ?i |- _ => pose proof (words_not _ _ _ W H); clear H
  | W : words ?i ?j, H : starts _ ?i |- _ => pose proof (words_starts _ _ _ W H); clear H
  | A : same_word ?t ?u, H : key_of ?t _ |- _ => pose proof (word_key _ _ _ A H); clear H
  end.
(** What similar tokens share. *)
Ltac word :=
  match goal with
  | A : same_word ?t ?u |- _ =>
    let T := fresh "T" in let S := fresh "S" in let X := fresh "X" in let L := fresh "L" in
    destruct A as (T & S & X & L);
    repeat match goal with
    | H : context [t_type t] |- _ => lazymatch H with T => fail | L => fail | _ => rewrite T in H end
    | H : t_string t = Some _ |- _ => rewrite S in H
    | H : t_float t = Some _ |- _ => rewrite X in H
    end
  end.
Ltac shape :=
  match goal with
  | E : unplaced_val (_ _) = unplaced_val ?v |- _ =>
    destruct v; cbn in E; try discriminate E; injection E as E
  end.

Section Relabel.
Variable trailing : bool.

Definition relabels (b : bool) (N : sym) (i : list token) (v : val) (r : list token) : Prop :=
  forall j N', words i j -> unplaced_sym N = unplaced_sym N' ->
  exists v' s, derives trailing b N' j v' s /\ words r s /\ unplaced_val v = unplaced_val v'.

Ltac ih :=
  match goal with
  | IH : relabels ?b ?N ?i ?v ?r, W : words ?i ?j |- _ =>
    match N with
    | BinaryTail _ _ => fail 1 | CallTail _ => fail 1 | Function _ => fail 1
    | _ =>
      let v' := fresh "v" in let E := fresh "E" in
      destruct (IH j N W eq_refl) as (v' & ? & ? & ? & E); clear IH; shape
    end
  | IH : relabels ?b (Function ?l) ?i ?v ?r, W : words ?i ?j |- _ =>
    let v' := fresh "v" in let E := fresh "E" in
    match goal with
    | A : name_then ?n _ i |- _ => fail 1
    | N : name_then ?n _ j |- _ =>
      destruct (IH j (Function (tloc n)) W eq_refl) as (v' & ? & ? & ? & E); clear IH; shape
    end
  end.
Ltac finish := eexists; eexists; split; [|split]; [econstructor; eauto; congruence|eassumption|cbn; congruence].

Ltac follow N :=
  match goal with
  | IH : relabels _ _ ?i _ _, W : words ?i ?j |- _ =>
    let v' := fresh "v" in let E := fresh "E" in
    destruct (IH j N W) as (v' & ? & ? & ? & E); [cbn; congruence|]; clear IH; shape
  end.
Ltac answer c :=
  eexists; eexists; split; [|split];
  [eapply c; eauto; try congruence|eassumption|try solve [cbn; congruence]].

Theorem derives_words : forall b N i v r, derives trailing b N i v r -> relabels b N i v r.
Proof.
  induction 1; intros j N' W SN;
    destruct N'; cbn in SN; try discriminate SN; try (injection SN as SN); subst;
    repeat (carry || ih); repeat word.
  all: try solve [finish].
  (* assignment *)
  - match goal with H : assigned _ _ _ = Some _ |- _ =>
      destruct (assigned_unplaced _ _ _ _ _ (tloc t0) _ H E E0) as (x' & ? & ?) end.
    answer d_assignment.
  - follow (BinaryTail level e0). answer d_binary.
  - match goal with H : operator _ _ = Some f, SN : _ = unplaced_expr left |- _ =>
      pose proof (operator_unplaced _ _ _ _ _ (tloc t) (tloc t0) _ _ H SN E) end.
    follow (BinaryTail level (f left (tloc t0) e0)). answer d_tail_more.
  - follow (CallTail e0). answer d_call.
  - follow (CallTail (EGet callee (t_lexeme x) (tloc t0))). answer d_call_get.
  - follow (CallTail (ECall callee nil (tloc t0))). answer d_call_none.
  - follow (CallTail (ECall callee es0 (tloc t0))). answer d_call_paren.
    erewrite <- map_length, <- E, map_length. eassumption.
  - follow (CallTail (EGetIndex callee e0 (tloc t0))). answer d_call_index.
  - assert (W : words (t :: i) (t0 :: j0)) by (constructor; [repeat split|]; assumption).
    ih. follow (CallTail (ECall callee es0 (tloc t0))). answer d_call_juxtaposed.
    erewrite <- map_length, <- E, map_length. eassumption.
  - answer d_variable. cbn. rewrite L; auto. rewrite T. auto.
  - answer d_bare_map. now rewrite <- (keys_unplaced _ _ E).
  - eexists; eexists. split; [|split]; [apply d_this_map; auto| |reflexivity].
    repeat constructor; auto.
  - follow (Function (tloc t0)). answer d_function.
  - answer d_brace_map. now rewrite <- (keys_unplaced _ _ E).
  - answer d_function_some. erewrite <- map_length, <- E, map_length. eassumption.
  - answer d_methods_more. cbn. f_equal. f_equal; [|assumption]. f_equal; [assumption|].
    match goal with H : t_lexeme n = _ |- _ => rewrite H end. now apply kind_unplaced.
  - answer d_methods_class. cbn. f_equal. f_equal; [|assumption]. f_equal; [assumption|].
    now apply kind_unplaced.
  - destruct for_init0.
    + carry. answer d_var_init.
    + match goal with H : _ \/ _ |- _ => destruct H as [H|(H & H' & ->)] end.
      * carry. answer d_var_init.
      * repeat carry. answer d_var_init.
  - answer d_for. cbn. f_equal. now apply for_unplaced.
Qed.
End Relabel.
