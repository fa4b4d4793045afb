(** Programs that differ in local names only, in sessions and as files (C105). *)
From Verif Require Import Base F64 Token Ast Scanner Parser Resolver Driver SpecPlace SpecOutline SpecAlpha Outline Alpha Order
  ResolveStep ResolveFinal.
Local Open Scope string_scope.
Local Open Scope list_scope.

Lemma history_global : forall h s, history h s -> only_globals s.
Proof. intros h s H. destruct (history_top h s H) as (g & E & _). exists g. subst. reflexivity. Qed.
Theorem alpha_history : forall h s l l', history h s -> alpha_program (map unplaced l) (map unplaced l') ->
  grounds_alike (resolver_resolve l s) (resolver_resolve l' s).
Proof. intros h s l l' H A. apply alpha_anywhere; auto. eapply history_global; eauto. Qed.
Theorem alpha_files : forall U oc F name a b l l', parse U oc a = Done (Ok l) -> parse U oc b = Done (Ok l') ->
  alpha_program (map unplaced l) (map unplaced l') ->
  p_end (main_file U oc F name (Contents a)) = p_end (main_file U oc F name (Contents b)).
Proof.
  intros U oc F name a b l l' Pa Pb A. unfold main_file, run. rewrite blank_new. cbn [obind]. rewrite Pa, Pb. cbn [obind].
  pose proof (alpha_history nil blank l l' (history_new _ blank_new) A) as H.
  destruct (resolver_resolve l blank) as [[[r|e] s]|w| |], (resolver_resolve l' blank) as [[[r'|e'] s']|w'| |]; cbn in H;
    try contradiction; cbn [obind fst].
  - destruct (print_result F (Ok r)), (print_result F (Ok r')). reflexivity.
  - destruct (print_result F (Err e)), (print_result F (Err e')). reflexivity.
  - subst. reflexivity.
Qed.
