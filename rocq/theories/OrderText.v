(** Files that are accepted on their own are accepted when put together (C104). *)
From Verif Require Import Base F64 Token Ast Scanner Parser Resolver Driver SpecLex SpecLayout SpecScan SpecGrammar SpecPlace SpecConcat
  SpecOrder RelabelResolve ConcatFinal Order.
Local Open Scope string_scope.
Local Open Scope list_scope.

Lemma exits_well : forall U oc F name gs l, parse U oc gs = Done (Ok l) ->
  (p_end (main_file U oc F name (Contents gs)) = Exited 0 <-> exists r, resolve l = Done (Ok r)).
Proof.
  intros U oc F name gs l P. unfold main_file, run, resolve. rewrite blank_new. cbn [obind]. rewrite P. cbn [obind].
  destruct (resolver_resolve l blank) as [[[r|e] s]|w| |]; cbn [obind fst].
  - destruct (print_result F (Ok r)). cbn. split; eauto.
  - destruct (print_result F (Err e)). cbn. split; [discriminate|intros (r & X); discriminate].
  - cbn. split; [discriminate|intros (r & X); discriminate].
  - cbn. split; [discriminate|intros (r & X); discriminate].
  - cbn. split; [discriminate|intros (r & X); discriminate].
Qed.
Theorem files_together : forall U oc F name a es ta la b es' lb, sane U -> valid_source a -> valid_source b ->
  lexes U a es -> whole_lines es -> lexes U b es' -> flush (source_lines es') ->
  scan_tokens U a = Done (Ok ta) -> parse U oc a = Done (Ok la) -> parse U oc b = Done (Ok lb) ->
  (forall tb, scan_tokens U b = Done (Ok tb) -> fresh_start tb) ->
  ~ ends_in_var la \/ ends_line ta -> within_bounds (la ++ lb) ->
  p_end (main_file U oc F name (Contents a)) = Exited 0 -> p_end (main_file U oc F name (Contents b)) = Exited 0 ->
  p_end (main_file U oc F name (Contents (a ++ b))) = Exited 0.
Proof.
  intros U oc F name a es ta la b es' lb Sn V V' L W L' Fl S Pa Pb Fr En B Ha Hb.
  destruct (parse_concat U Sn a b V V' es es' L W L' Fl oc ta la S Pa Fr En) as [G _]. rewrite Pb in G.
  destruct (parse U oc (a ++ b)) as [[m|e]|w| |] eqn:P; cbn in G; try contradiction.
  apply (exits_well U oc F name a la Pa) in Ha. apply (exits_well U oc F name b lb Pb) in Hb.
  apply (exits_well U oc F name _ m P).
  destruct (put_together [la; lb]) as (r & E); [repeat constructor; auto|cbn [concat]; rewrite app_nil_r; exact B|].
  cbn [concat] in E. rewrite app_nil_r in E. pose proof (resolve_same _ _ G) as X. rewrite E in X.
  destruct (resolve m) as [[r'|e]|w| |]; cbn in X; try contradiction. eauto.
Qed.
