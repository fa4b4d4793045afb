(** The numbers of parsed and resolved programs are values of number tokens. *)
From Verif Require Import Base F64 Token Ast AstInd Scanner Parser Resolver SpecLex SpecScan SpecTree SpecShow
  SpecResolve ResolveFinal ScanFinal ParseFinal.

Lemma flat_map_alike {A} (f : A -> list part) (g : A -> A) : forall l,
  Forall (fun x => Forall literal_part (f (g x)) <-> Forall literal_part (f x)) l ->
  (Forall literal_part (flat_map f (map g l)) <-> Forall literal_part (flat_map f l)).
Proof.
  induction 1 as [|x l H HF IH]; cbn [map flat_map]; [tauto|].
  rewrite !Forall_app, H, IH. tauto.
Qed.

Lemma literals_erase_tree :
  (forall a, Forall literal_part (parts (erase a)) <-> Forall literal_part (parts a)) /\
  (forall a, Forall literal_part (expr_parts (erase_expr a)) <-> Forall literal_part (expr_parts a)) /\
  (forall a, Forall literal_part (class_parts (erase_class a)) <-> Forall literal_part (class_parts a)) /\
  (forall a, Forall literal_part (fun_parts (erase_fun a)) <-> Forall literal_part (fun_parts a)).
Proof.
  apply (tree_ind
    (fun a => Forall literal_part (parts (erase a)) <-> Forall literal_part (parts a))
    (fun a => Forall literal_part (expr_parts (erase_expr a)) <-> Forall literal_part (expr_parts a))
    (fun a => Forall literal_part (class_parts (erase_class a)) <-> Forall literal_part (class_parts a))
    (fun a => Forall literal_part (fun_parts (erase_fun a)) <-> Forall literal_part (fun_parts a)));
    intros; cbn [erase erase_expr erase_class erase_fun parts expr_parts class_parts fun_parts];
    rewrite ?Forall_cons_iff, ?Forall_app, ?flat_map_alike by assumption; cbn [literal_part]; try tauto.
  - destruct e; cbn [option_map Popt] in *; tauto.
  - assert (X : Forall literal_part (flat_map (fun kv => match kv with (_, a) => expr_parts a end)
        (map (fun kv => match kv with (k, e) => (k, erase_expr e) end) m)) <->
      Forall literal_part (flat_map (fun kv : string * expr => match kv with (_, a) => expr_parts a end) m)).
    { apply flat_map_alike. refine (Forall_impl _ _ H). intros [k e]. auto. }
    tauto.
  - assert (X : Forall literal_part (flat_map (fun n => match n with NamedFun _ f => fun_parts f end)
        (map (fun m => match m with NamedFun n f => NamedFun n (erase_fun f) end) ms)) <->
      Forall literal_part (flat_map (fun n => match n with NamedFun _ f => fun_parts f end) ms)).
    { apply flat_map_alike. refine (Forall_impl _ _ H0). intros [k f]. auto. }
    destruct s; cbn [option_map Popt] in *; tauto.
Qed.
Lemma literals_erase : forall l, literals (map erase l) <-> literals l.
Proof.
  intros l. apply flat_map_alike. apply Forall_forall. intros x _. apply literals_erase_tree.
Qed.

Lemma parsed_literals : forall U oc gs l, sane U -> valid_source gs -> accepted U oc gs l -> literals l.
Proof.
  intros U oc gs l Sn V A.
  destruct (locations U Sn oc gs V (program_parts l)) as (toks & E & H); [left; eauto|].
  refine (Forall_impl _ _ H). intros [st|e|c|f]; cbn; auto. destruct e; auto.
  intros (t & I & T & X). destruct (numbers U Sn gs toks t V E I T) as (? & ? & ? & ? & y & _ & _ & Y & P & _).
  exists (t_lexeme t). congruence.
Qed.
Lemma resolved_literals : forall l s l' s', top_state s -> resolver_resolve l s = Done (Ok l', s') ->
  literals l -> literals l'.
Proof.
  intros l s l' s' T H L. apply literals_erase. apply (program_ok _ _ _ _ T) in H.
  rewrite (proj1 H). apply literals_erase, L.
Qed.
