(** The grammar under change of names: tokens with other names derive the trees with the other names, up to
    positions. *)
From Verif Require Import Base F64 Token Ast SpecPlace SpecGrammar SpecRename SpecRenameText Relabel.

Section Rename.
Variable r : string -> string.
Hypothesis RA : renaming_all r.

Definition new_word (t t' : token) : Prop :=
  t_type t = t_type t' /\ option_map r (t_string t) = t_string t' /\ t_float t = t_float t' /\
  (In (t_type t) [Identifier; This] -> r (t_lexeme t) = t_lexeme t').
Definition new_words (i j : list token) : Prop := Forall2 new_word i j.
Notation ren := (renamed_expr r r).

Definition renamed_val (v : val) : val :=
  match v with
  | VE e => VE (ren e)
  | VEs es => VEs (map ren es)
  | VM m => VM (map (fun kv => match kv with (k, e) => (r k, ren e) end) m)
  | VPs ps => VPs (map (fun p => mkParam (r (p_name p)) (p_loc p)) ps)
  | VF f => VF (renamed_fun r r f)
  | VS st => VS (renamed r r st)
  | VO o => VO (option_map (renamed r r) o)
  | VOE o => VOE (option_map ren o)
  | VSs l => VSs (map (renamed r r) l)
  | VMs l => VMs (map (fun m => match m with NamedFun x f => NamedFun (r x) (renamed_fun r r f) end) l)
  end.
Definition renamed_sym (N : sym) : sym :=
  match N with
  | BinaryTail n e => BinaryTail n (ren e)
  | CallTail e => CallTail (ren e)
  | N => N
  end.

(** Of the tokens only the kinds are looked at. *)
Definition kinds (i j : list token) : Prop := Forall2 (fun t t' => t_type t = t_type t') i j.
Lemma new_kinds i j : new_words i j -> kinds i j.
Proof. induction 1; constructor; auto. apply H. Qed.
Lemma kinds_sym i j : kinds i j -> kinds j i.
Proof. induction 1; constructor; auto. Qed.
Lemma kinds_starts ks i j : kinds i j -> starts ks i -> starts ks j.
Proof. destruct 1 as [|t t' ? ? A]; cbn; auto. now rewrite A. Qed.
Lemma kinds_entry i j : kinds i j -> entry_here i -> entry_here j.
Proof.
  intros W (t & c & z & -> & I & K). inversion W as [|? t' ? j' A W']; subst.
  inversion W' as [|? u' ? j'' A' W'']; subst. exists t', u', j''. rewrite <- A, <- A'. auto.
Qed.
Lemma kinds_separator i j z : kinds i j -> separator i z -> exists s, separator j s.
Proof.
  intros W [(t & -> & K)|[(t & -> & K) E]]; inversion W as [|? t' ? j' A W']; subst; exists j'.
  - left. exists t'. split; auto. congruence.
  - right. split; [exists t'; split; auto; congruence|].
    destruct E as [E|E]; [left; eapply kinds_entry|right; eapply kinds_starts]; eauto.
Qed.

Lemma new_cons t i j : new_words (t :: i) j -> exists t' j', j = t' :: j' /\ new_word t t' /\ new_words i j'.
Proof. inversion 1; subst. eauto. Qed.
Lemma new_starts ks i j : new_words i j -> starts ks i -> starts ks j.
Proof. intros W. apply kinds_starts. now apply new_kinds. Qed.
Lemma new_not ks i j : new_words i j -> ~ starts ks i -> ~ starts ks j.
Proof. intros W N H. apply N. eapply kinds_starts; [|exact H]. apply kinds_sym. now apply new_kinds. Qed.
Lemma new_token k i z j : new_words i j -> token_then k i z -> exists s, token_then k j s /\ new_words z s.
Proof.
  intros W (t & -> & K). apply new_cons in W. destruct W as (t' & j' & -> & (A & _) & W).
  exists j'. split; auto. exists t'. split; auto. congruence.
Qed.
Lemma new_paren i z j : new_words i j -> paren_then i z -> exists s, paren_then j s /\ new_words z s.
Proof.
  intros W [H|H]; destruct (new_token _ _ _ _ W H) as (s & ? & ?); exists s; split; auto.
  - now left. - now right.
Qed.
Lemma new_optional k i z j : new_words i j -> optional k i z -> exists s, optional k j s /\ new_words z s.
Proof.
  intros W H. inversion H; subst.
  - apply new_cons in W. destruct W as (t' & j' & -> & (A & _) & W).
    exists j'. split; auto. constructor. congruence.
  - exists j. split; auto. constructor. eapply new_not; eauto.
Qed.
Lemma new_name t i z j : new_words i j -> name_then t i z ->
  exists t' s, name_then t' j s /\ new_words z s /\ r (t_lexeme t) = t_lexeme t'.
Proof.
  intros W (-> & K). apply new_cons in W. destruct W as (t' & j' & -> & (A & _ & _ & B) & W).
  exists t', j'. repeat split; auto; [congruence|]. apply B. rewrite K. now left.
Qed.
Lemma new_opens k i z j : new_words i j -> opens k i z -> exists s, opens k j s /\ new_words z s.
Proof.
  intros W H. inversion H; subst; apply new_cons in W; destruct W as (t' & j' & -> & (A & _) & W).
  - apply new_cons in W. destruct W as (u' & j'' & -> & (A' & _) & W).
    exists j''. split; auto. constructor; congruence.
  - exists j'. split; auto. constructor. congruence.
Qed.
Lemma new_entry i j : new_words i j -> entry_here i -> entry_here j.
Proof. intros W. apply kinds_entry. now apply new_kinds. Qed.
Lemma new_no_entry i j : new_words i j -> ~ entry_here i -> ~ entry_here j.
Proof. intros W N H. apply N. eapply kinds_entry; [|exact H]. apply kinds_sym. now apply new_kinds. Qed.
Lemma new_separator i j z : new_words i j -> separator i z -> exists s, separator j s /\ new_words z s.
Proof.
  intros W [H|[H E]]; destruct (new_token _ _ _ _ W H) as (s & T & W'); exists s; split; auto.
  - now left.
  - right. split; auto. destruct E as [E|E]; [left; eapply new_entry|right; eapply new_starts]; eauto.
Qed.
Lemma new_no_separator i j : new_words i j -> (forall z, ~ separator i z) -> forall z, ~ separator j z.
Proof.
  intros W H z S. destruct (kinds_separator j i z (kinds_sym _ _ (new_kinds _ _ W)) S) as (s & S').
  exact (H s S').
Qed.
Lemma new_key t t' k : new_word t t' -> key_of t k -> key_of t' (r k).
Proof.
  intros (A & B & _ & D) [[K E]|[K E]]; [left|right]; split; try congruence.
  - rewrite E. apply D. rewrite K. now left.
  - rewrite <- B, E. reflexivity.
Qed.
Lemma new_no_operator n i j : new_words i j -> no_operator n i -> no_operator n j.
Proof. destruct 1 as [|t t' ? ? (A & _)]; cbn; auto. now rewrite A. Qed.

(** Trees. *)
Lemma eqb_kept x y : r y = y -> String.eqb (r x) y = String.eqb x y.
Proof.
  intros E. destruct (String.eqb_spec x y) as [E1|N], (String.eqb_spec (r x) y) as [E'|N']; auto.
  - destruct N'. congruence.
  - destruct N. apply RA. congruence.
Qed.
Lemma this_kept : r "this" = "this". Proof. apply RA. Qed.
Lemma init_kept : r "init" = "init". Proof. apply RA. Qed.
Lemma operator_new n k f a a' l l' b b' :
  operator n k = Some f -> unplaced_expr (ren a) = unplaced_expr a' -> unplaced_expr (ren b) = unplaced_expr b' ->
  unplaced_expr (ren (f a l b)) = unplaced_expr (f a' l' b').
Proof.
  intros H A B. do 6 (destruct n as [|n]; [destruct k; cbn in H; try discriminate H;
    injection H as <-; cbn; congruence|]). destruct k; discriminate H.
Qed.
Lemma assigned_new e e' v v' l l' x :
  assigned e v l = Some x -> unplaced_expr (ren e) = unplaced_expr e' -> unplaced_expr (ren v) = unplaced_expr v' ->
  exists x', assigned e' v' l' = Some x' /\ unplaced_expr (ren x) = unplaced_expr x'.
Proof.
  intros H E V. destruct e; cbn in H; try discriminate H; destruct e'; cbn in E; try discriminate E;
    injection E; intros; subst; cbn.
  - injection H as <-. eexists. split; [reflexivity|]. cbn. congruence.
  - injection H as <-. eexists. split; [reflexivity|]. cbn. congruence.
  - rewrite (eqb_kept _ _ this_kept). destruct (String.eqb _ _); [discriminate|]. injection H as <-.
    eexists. split; [reflexivity|]. cbn. congruence.
Qed.
Lemma keys_new (m m' : list (string * expr)) :
  map (fun kv => match kv with (k, e) => (k, unplaced_expr e) end)
    (map (fun kv => match kv with (k, e) => (r k, ren e) end) m) =
  map (fun kv => match kv with (k, e) => (k, unplaced_expr e) end) m' -> map r (map fst m) = map fst m'.
Proof.
  revert m'. induction m as [|[k e] m IH]; destruct m' as [|[k' e'] m']; cbn; intros H;
    try discriminate; auto.
  injection H as -> _ H. f_equal. auto.
Qed.
Lemma nodup_new (l : list string) : NoDup l -> NoDup (map r l).
Proof.
  induction 1 as [|x l N H IH]; cbn; constructor; auto. intros I. apply in_map_iff in I.
  destruct I as (y & E & I). apply RA in E. congruence.
Qed.
Lemma kind_new k f f' :
  unplaced_fun (renamed_fun r r f) = unplaced_fun f' ->
  unplaced_fun (renamed_fun r r (with_kind k f)) = unplaced_fun (with_kind k f').
Proof. destruct f, f'; cbn; congruence. Qed.
Lemma method_new c x : method_kind c (r x) = method_kind c x.
Proof. unfold method_kind. now rewrite (eqb_kept _ _ init_kept). Qed.
Lemma for_new i i' c c' n n' s s' :
  option_map unplaced (option_map (renamed r r) i) = option_map unplaced i' -> unplaced_expr (ren c) = unplaced_expr c' ->
  option_map unplaced_expr (option_map ren n) = option_map unplaced_expr n' -> unplaced (renamed r r s) = unplaced s' ->
  unplaced (renamed r r (for_tree i c n s)) = unplaced (for_tree i' c' n' s').
Proof.
  destruct i, i', n, n'; cbn; intros; try discriminate; congruence.
Qed.

Ltac carry :=
  match goal with
  | W : new_words (_ :: _) ?j |- _ =>
    let t := fresh "t" in let j' := fresh "j" in let A := fresh "A" in
    apply new_cons in W; destruct W as (t & j' & W & A & ?); subst j
  | W : new_words ?i ?j, H : token_then _ ?i _ |- _ =>
    destruct (new_token _ _ _ _ W H) as (? & ? & ?); clear H
  | W : new_words ?i ?j, H : paren_then ?i _ |- _ =>
    destruct (new_paren _ _ _ W H) as (? & ? & ?); clear H
  | W : new_words ?i ?j, H : optional _ ?i _ |- _ =>
    destruct (new_optional _ _ _ _ W H) as (? & ? & ?); clear H
  | W : new_words ?i ?j, H : name_then _ ?i _ |- _ =>
    destruct (new_name _ _ _ _ W H) as (? & ? & ? & ? & ?); clear H
  | W : new_words ?i ?j, H : opens _ ?i _ |- _ =>
    destruct (new_opens _ _ _ _ W H) as (? & ? & ?); clear H
  | W : new_words ?i ?j, H : separator ?i _ |- _ =>
    destruct (new_separator _ _ _ W H) as (? & ? & ?); clear H
  | W : new_words ?i ?j, H : forall z, ~ separator ?i z |- _ =>
    pose proof (new_no_separator _ _ W H); clear H
  | W : new_words ?i ?j, H : entry_here ?i |- _ => pose proof (new_entry _ _ W H); clear H
  | W : new_words ?i ?j, H : ~ entry_here ?i |- _ => pose proof (new_no_entry _ _ W H); clear H
  | W : new_words ?i ?j, H : no_operator _ ?i |- _ => pose proof (new_no_operator _ _ _ W H); clear H
  | W : new_words ?i ?j, H : ~ starts _ ?i |- _ => pose proof (new_not _ _ _ W H); clear H
  | W : new_words ?i ?j, H : starts _ ?i |- _ => pose proof (new_starts _ _ _ W H); clear H
  | A : new_word ?t ?u, H : key_of ?t _ |- _ => pose proof (new_key _ _ _ A H); clear H
  end.
Ltac word :=
  match goal with
  | A : new_word ?t ?u |- _ =>
    let T := fresh "T" in let S := fresh "S" in let X := fresh "X" in let L := fresh "L" in
    destruct A as (T & S & X & L);
    repeat match goal with
    | H : context [t_type t] |- _ => lazymatch H with T => fail | L => fail | _ => rewrite T in H end
    | H : t_string t = Some _ |- _ => rewrite H in S; cbn [option_map] in S; symmetry in S; clear H
    | H : t_float t = Some _ |- _ => rewrite X in H
    end
  end.
Ltac shape :=
  match goal with
  | E : unplaced_val (renamed_val (_ _)) = unplaced_val ?v |- _ =>
    destruct v; cbn in E; try discriminate E; injection E as E
  end.

Section Derive.
Variable trailing : bool.

Definition renames (b : bool) (N : sym) (i : list token) (v : val) (z : list token) : Prop :=
  forall j N', new_words i j -> unplaced_sym (renamed_sym N) = unplaced_sym N' ->
  exists v' s, derives trailing b N' j v' s /\ new_words z s /\ unplaced_val (renamed_val v) = unplaced_val v'.

Ltac ih :=
  match goal with
  | IH : renames ?b ?N ?i ?v ?z, W : new_words ?i ?j |- _ =>
    match N with
    | BinaryTail _ _ => fail 1 | CallTail _ => fail 1 | Function _ => fail 1
    | _ =>
      let v' := fresh "v" in let E := fresh "E" in
      destruct (IH j N W eq_refl) as (v' & ? & ? & ? & E); clear IH; shape
    end
  | IH : renames ?b (Function ?l) ?i ?v ?z, W : new_words ?i ?j |- _ =>
    let v' := fresh "v" in let E := fresh "E" in
    match goal with
    | A : name_then ?n _ i |- _ => fail 1
    | N : name_then ?n _ j |- _ =>
      destruct (IH j (Function (tloc n)) W eq_refl) as (v' & ? & ? & ? & E); clear IH; shape
    end
  end.
Ltac finish := eexists; eexists; split; [|split]; [econstructor; eauto; congruence|eassumption|cbn; congruence].

Ltac follow N :=
  match goal with
  | IH : renames _ _ ?i _ _, W : new_words ?i ?j |- _ =>
    let v' := fresh "v" in let E := fresh "E" in
    destruct (IH j N W) as (v' & ? & ? & ? & E); [cbn; congruence|]; clear IH; shape
  end.
Ltac answer c :=
  eexists; eexists; split; [|split];
  [eapply c; eauto; try congruence|eassumption|try solve [cbn; congruence]].

Theorem derives_renamed : forall b N i v z, derives trailing b N i v z -> renames b N i v z.
Proof.
  induction 1; intros j N' W SN;
    destruct N'; cbn in SN; try discriminate SN; try (injection SN as SN); subst;
    repeat (carry || ih); repeat word.
  all: try solve [finish].
  (* assignment *)
  - match goal with H : assigned _ _ _ = Some _ |- _ =>
      destruct (assigned_new _ _ _ _ _ (tloc t0) _ H E E0) as (x' & ? & ?) end.
    answer d_assignment.
  - follow (BinaryTail level e0). answer d_binary.
  - match goal with SN : unplaced_expr (ren e) = _ |- _ =>
      pose proof (operator_new _ _ _ _ _ (tloc t) (tloc t0) _ _ H SN E) end.
    follow (BinaryTail level (f left (tloc t0) e0)). answer d_tail_more.
  - follow (CallTail e0). answer d_call.
  - follow (CallTail (EGet callee (t_lexeme x) (tloc t0))). answer d_call_get.
  - follow (CallTail (ECall callee nil (tloc t0))). answer d_call_none.
  - follow (CallTail (ECall callee es0 (tloc t0))). answer d_call_paren.
    erewrite <- (map_length _ es0), <- E, !map_length. eassumption.
  - follow (CallTail (EGetIndex callee e0 (tloc t0))). answer d_call_index.
  - assert (W : new_words (t :: i) (t0 :: j0)) by (constructor; [repeat split|]; assumption).
    ih. follow (CallTail (ECall callee es0 (tloc t0))). answer d_call_juxtaposed.
    erewrite <- (map_length _ es0), <- E, !map_length. eassumption.
  - answer d_variable. cbn. rewrite L; auto. rewrite T. auto.
  - answer d_bare_map. rewrite <- (keys_new _ _ E). now apply nodup_new.
  - eexists; eexists. split; [|split]; [apply d_this_map; auto| |reflexivity].
    repeat constructor; auto.
  - follow (Function (tloc t0)). answer d_function.
  - answer d_brace_map. rewrite <- (keys_new _ _ E). now apply nodup_new.
  - answer d_function_some. erewrite <- (map_length _ ps0), <- E, !map_length. eassumption.
  - answer d_methods_more. cbn. f_equal. f_equal; [|assumption]. f_equal; [assumption|].
    match goal with H : r (t_lexeme n) = _ |- _ => rewrite <- H, (eqb_kept _ _ init_kept) end. now apply kind_new.
  - answer d_methods_class. cbn. f_equal. f_equal; [|assumption]. f_equal; [assumption|].
    now apply kind_new.
  - destruct for_init0.
    + carry. answer d_var_init.
    + match goal with H : _ \/ _ |- _ => destruct H as [H|(H & H' & ->)] end.
      * carry. answer d_var_init.
      * repeat carry. answer d_var_init.
  - answer d_for. cbn. f_equal. now apply for_new.
Qed.
End Derive.
End Rename.
