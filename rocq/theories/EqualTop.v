(** [==] on what the parser and the resolver return. *)
From Coq Require Import Floats.SpecFloat Permutation.
From Verif Require Import Base F64 Token Ast AstInd Scanner Parser Resolver SpecLex SpecLayout SpecScan StrFacts ScanLex ScanUnique ScanProps SpecTree SpecShow SpecResolve
  ResolveFinal ScanFinal ParseFinal ShowNumbers TextNumber Repair Equal SpecEqual EqualFacts.

Lemma literal_ordinary x : literal x -> ordinary x.
Proof. intros L. destruct (literal_cases x L) as [->|[->|(m & e & ->)]]; split; discriminate. Qed.

Lemma parsed_ordinary U oc gs l : sane U -> valid_source gs -> accepted U oc gs l -> Forall ordinary_part (program_parts l).
Proof.
  intros Sn V A. pose proof (parsed_literals U oc gs l Sn V A) as L.
  assert (K : Forall distinct_keys (program_parts l)) by (apply (map_keys U Sn oc gs V); left; eauto).
  unfold literals in L. rewrite Forall_forall in *. intros p I. specialize (L p I). specialize (K p I).
  destruct p as [|[]| |]; cbn in *; auto. now apply literal_ordinary.
Qed.
Lemma parsed_ordinary_expr U oc gs e : sane U -> valid_source gs -> parse_expression U oc gs = Done (Ok e) ->
  Forall ordinary_part (expr_parts e).
Proof.
  intros Sn V A.
  assert (T : tree_parts U oc gs (expr_parts e)) by (right; eauto).
  pose proof (map_keys U Sn oc gs V _ T) as K. destruct (locations U Sn oc gs V _ T) as (toks & E & H).
  rewrite Forall_forall in *. intros p I. specialize (K p I). specialize (H p I).
  destruct p as [|[]| |]; cbn in *; auto. apply literal_ordinary.
  destruct H as (t & I' & Y & X). destruct (numbers U Sn gs toks t V E I' Y) as (? & ? & ? & ? & y & _ & _ & Z & P & _).
  exists (t_lexeme t). congruence.
Qed.

(** Resolving keeps it. *)
Lemma flat_ordinary {A} (f : A -> list part) (g : A -> A) : forall l,
  Forall (fun x => Forall ordinary_part (f (g x)) <-> Forall ordinary_part (f x)) l ->
  (Forall ordinary_part (flat_map f (map g l)) <-> Forall ordinary_part (flat_map f l)).
Proof.
  induction 1 as [|x l H HF IH]; cbn [map flat_map]; [tauto|]. rewrite !Forall_app, H, IH. tauto.
Qed.
Lemma ordinary_erase_tree :
  (forall a, Forall ordinary_part (parts (erase a)) <-> Forall ordinary_part (parts a)) /\
  (forall a, Forall ordinary_part (expr_parts (erase_expr a)) <-> Forall ordinary_part (expr_parts a)) /\
  (forall a, Forall ordinary_part (class_parts (erase_class a)) <-> Forall ordinary_part (class_parts a)) /\
  (forall a, Forall ordinary_part (fun_parts (erase_fun a)) <-> Forall ordinary_part (fun_parts a)).
Proof.
  apply (tree_ind
    (fun a => Forall ordinary_part (parts (erase a)) <-> Forall ordinary_part (parts a))
    (fun a => Forall ordinary_part (expr_parts (erase_expr a)) <-> Forall ordinary_part (expr_parts a))
    (fun a => Forall ordinary_part (class_parts (erase_class a)) <-> Forall ordinary_part (class_parts a))
    (fun a => Forall ordinary_part (fun_parts (erase_fun a)) <-> Forall ordinary_part (fun_parts a)));
    intros; cbn [erase erase_expr erase_class erase_fun parts expr_parts class_parts fun_parts];
    rewrite ?Forall_cons_iff, ?Forall_app, ?flat_ordinary by assumption; cbn [ordinary_part]; try tauto.
  - destruct e; cbn [option_map Popt] in *; tauto.
  - assert (X : Forall ordinary_part (flat_map (fun kv => match kv with (_, a) => expr_parts a end)
        (map (fun kv => match kv with (k, e) => (k, erase_expr e) end) m)) <->
      Forall ordinary_part (flat_map (fun kv : string * expr => match kv with (_, a) => expr_parts a end) m)).
    { apply flat_ordinary. refine (Forall_impl _ _ H). intros [k e]. auto. }
    assert (Y : map fst (map (fun kv : string * expr => match kv with (k, e) => (k, erase_expr e) end) m) = map fst m).
    { clear. induction m as [|[k e] m IH]; cbn; congruence. }
    rewrite Y. tauto.
  - assert (X : Forall ordinary_part (flat_map (fun n => match n with NamedFun _ f => fun_parts f end)
        (map (fun m => match m with NamedFun n f => NamedFun n (erase_fun f) end) ms)) <->
      Forall ordinary_part (flat_map (fun n => match n with NamedFun _ f => fun_parts f end) ms)).
    { apply flat_ordinary. refine (Forall_impl _ _ H0). intros [k f]. auto. }
    destruct s; cbn [option_map Popt] in *; tauto.
Qed.
Lemma ordinary_erase l : Forall ordinary_part (program_parts (map erase l)) <-> Forall ordinary_part (program_parts l).
Proof. apply flat_ordinary. apply Forall_forall. intros x _. apply ordinary_erase_tree. Qed.
Lemma resolved_ordinary l s l' s' : top_state s -> resolver_resolve l s = Done (Ok l', s') ->
  Forall ordinary_part (program_parts l) -> Forall ordinary_part (program_parts l').
Proof.
  intros T H L. apply ordinary_erase. apply (program_ok _ _ _ _ T) in H.
  rewrite (proj1 H). apply ordinary_erase, L.
Qed.

Lemma from_source_ordinary l : from_source l -> Forall ordinary_part (program_parts l).
Proof.
  intros (U & oc & gs & l0 & Sn & V & A & C). pose proof (parsed_ordinary U oc gs l0 Sn V A) as O.
  destruct C as [->|(s & s' & T & H)]; auto. eapply resolved_ordinary; eauto.
Qed.
Lemma equal_programs l l' : from_source l -> from_source l' -> (program_eqb l l' = true <-> Forall2 same_stmt l l').
Proof. intros A B. apply program_same; now apply from_source_ordinary. Qed.
Lemma equal_expressions U oc gs e U' oc' gs' e' : sane U -> valid_source gs -> parse_expression U oc gs = Done (Ok e) ->
  sane U' -> valid_source gs' -> parse_expression U' oc' gs' = Done (Ok e') ->
  (expr_eqb e e' = true <-> same_expr e e').
Proof. intros S V E S' V' E'. apply expr_same; [exact (parsed_ordinary_expr U oc gs e S V E)|exact (parsed_ordinary_expr U' oc' gs' e' S' V' E')]. Qed.
Lemma equal_refl l : from_source l -> program_eqb l l = true.
Proof. intros A. apply equal_programs; auto. apply Forall2_refl. apply Forall_forall. intros x _. apply same_refl. Qed.
Lemma equal_sym l l' : from_source l -> from_source l' -> program_eqb l l' = true -> program_eqb l' l = true.
Proof.
  intros A B H. apply equal_programs; auto. apply (equal_programs l l' A B) in H. apply Forall2_flip; auto.
  apply Forall_forall. intros x _. apply same_sym.
Qed.
Lemma equal_trans l l' l'' : from_source l -> from_source l' -> from_source l'' ->
  program_eqb l l' = true -> program_eqb l' l'' = true -> program_eqb l l'' = true.
Proof.
  intros A B C H K. apply equal_programs; auto. apply (equal_programs l l' A B) in H. apply (equal_programs l' l'' B C) in K.
  eapply Forall2_join; eauto. apply Forall_forall. intros x _. apply same_trans.
Qed.
Lemma equal_small l l' : from_source l -> from_source l' -> Forall small_map (program_parts l) ->
  (program_eqb l l' = true <-> l = l').
Proof.
  intros A B M. split; [intros H; apply (equal_programs l l' A B) in H; now apply program_small|intros <-; now apply equal_refl].
Qed.

(** Tokens and errors. *)
Lemma string_option o o' : option_eqb String.eqb o o' = true <-> o = o'.
Proof. apply option_eq. intros. apply String.eqb_eq. Qed.
Definition float_ordinary (t : token) : Prop := match t_float t with Some x => ordinary x | None => True end.
Lemma token_eq t t' : float_ordinary t -> float_ordinary t' -> (token_eqb t t' = true <-> t = t').
Proof.
  unfold float_ordinary, token_eqb. intros A B. rewrite !andb_true_iff, String.eqb_eq, string_option, !N.eqb_eq.
  destruct t as [k x s f l c], t' as [k' x' s' f' l' c']; cbn in *. split.
  - intros (((((K & ->) & ->) & F) & ->) & ->). apply same_type in K as ->.
    destruct f as [f|], f' as [f'|]; cbn in F; try discriminate; auto. now apply number_eq in F as ->.
  - intros [= -> -> -> -> -> ->]. repeat split; auto; [now destruct k'|]. destruct f'; cbn; auto. now apply number_eq.
Qed.
(** Layout tokens carry no value; the others carry that of their lexeme. *)
Lemma scanned_values U gs toks t : sane U -> valid_source gs -> scan_tokens U gs = Done (Ok toks) -> In t toks ->
  match t_type t with Number => t_string t = None /\ exists x, t_float t = Some x /\ parse_f64 (t_lexeme t) = Some x
  | TString => t_float t = None /\ exists s, t_string t = Some s
  | _ => t_string t = None /\ t_float t = None end.
Proof.
  intros Sn V H I. destruct (SpecScan.from_text t) eqn:F.
  - destruct (lexes_total U gs) as [es L].
    destruct (token_origin U gs es toks t Sn V L H I F) as (a & k & text & str & nu & c & rest & _ & _ & Lx & ->).
    cbn [mk_at t_type t_string t_float t_lexeme]. inversion Lx; subst; cbn; eauto.
    + match goal with I : In _ punctuation |- _ => cbn in I; repeat (destruct I as [[= <- <-]|I]; [try destruct (abuts _); cbn; auto|]); destruct I end.
    + match goal with I : In _ eq_operators |- _ => cbn in I; repeat (destruct I as [[= <- <- <-]|I]; [cbn; auto|]); destruct I end.
    + match goal with I : In _ eq_operators |- _ => cbn in I; repeat (destruct I as [[= <- <- <-]|I]; [cbn; auto|]); destruct I end.
    + match goal with W : word_kind _ _ |- _ => inversion W as [? ? I0|]; subst; auto;
        cbn in I0; repeat (destruct I0 as [[= <- <-]|I0]; [cbn; auto|]); destruct I0 end.
  - destruct (lexes_total U gs) as [es L]. destruct (scan_ok U gs es Sn V L toks H) as (-> & _ & _). unfold scanned_tokens in I.
    assert (Ly : is_layout (t_type t) = true) by (unfold SpecScan.from_text in F; now destruct (is_layout (t_type t))).
    assert (X : t_string t = None /\ t_float t = None).
    { apply in_app_or in I. destruct I as [I|I].
      - destruct (tokens_of_layout (source_lines es) nil t (bodies_text U gs es L) I Ly) as (_ & a & l & b & _ & [X|X]).
        + unfold opening in X. destruct (content (body l)) as [|[before e] r]; [contradiction|]. destruct (_ <? _)%N.
          * destruct (is_joined _); [contradiction|]. destruct X as [<-|[]]. auto.
          * apply repeat_spec in X. subst. auto.
        + unfold terminator in X. destruct (ending l); try contradiction. destruct (content (body l)); [contradiction|].
          destruct (_ || _); [contradiction|]. destruct X as [<-|[]]. auto.
      - unfold closing in I. apply in_app_or in I. destruct I as [I|[<-|[]]]; [apply repeat_spec in I; subst|]; auto. }
    destruct (t_type t); auto; discriminate.
Qed.
Lemma scanned_ordinary U gs toks : sane U -> valid_source gs -> scan_tokens U gs = Done (Ok toks) -> Forall float_ordinary toks.
Proof.
  intros Sn V E. apply Forall_forall. intros t I. pose proof (scanned_values U gs toks t Sn V E I) as H.
  unfold float_ordinary. destruct (t_float t) as [x|] eqn:Q; auto. apply literal_ordinary. exists (t_lexeme t).
  destruct (t_type t); try (destruct H as [_ X]; discriminate); try (destruct H as [X _]; discriminate).
  destruct H as (_ & y & [= <-] & P). exact P.
Qed.
Lemma equal_tokens U gs toks U' gs' toks' : sane U -> valid_source gs -> scan_tokens U gs = Done (Ok toks) ->
  sane U' -> valid_source gs' -> scan_tokens U' gs' = Done (Ok toks') -> (list_eqb token_eqb toks toks' = true <-> toks = toks').
Proof.
  intros Sn V E Sn' V' E'. pose proof (scanned_ordinary U gs toks Sn V E) as A. pose proof (scanned_ordinary U' gs' toks' Sn' V' E') as B.
  clear - A B. revert toks' B. induction A as [|t l P A IH]; intros [|t' l'] B; cbn; try (split; [discriminate|intros [=]]); [tauto|].
  inversion B; subst. rewrite andb_true_iff, (token_eq t t'), (IH l') by auto. split; [intros [-> ->]; auto|intros [= -> ->]; auto].
Qed.
Lemma cause_eq c c' : cause_eqb c c' = true <-> c = c'.
Proof.
  unfold cause_eqb. rewrite !andb_true_iff, loc_eq, string_option, String.eqb_eq. destruct c, c'; cbn. split.
  - intros [[-> ->] ->]. auto.
  - intros [= -> -> ->]. auto.
Qed.
Lemma equal_errors e e' : error_eqb e e' = true <-> e = e'.
Proof. apply list_eq, cause_eq. Qed.
