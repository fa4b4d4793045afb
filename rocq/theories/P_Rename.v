(** Properties of the front end under change of names, and of programs that are resolved again (src/scanner.rs,
    src/parser.rs, src/resolver.rs): C79, C80, C81 and C84.

    [renaming], [renamed], [only_accepted]: SpecRename.v; [renamed_elem], [renamed_program], [rewrites]:
    SpecRenameText.v. *)
From Verif Require Import Base F64 Token Ast Scanner Parser Resolver SpecResolve SpecRename ResolveStep ResolveFinal RenameResolve Rerun
  Segment SpecLex SpecScan SpecPlace SpecRenameText RenameText RenameInit ScanFinal TestsParser P_Driver P_Parser P_Resolver.
Local Open Scope string_scope.

(** ** C79 *)
Theorem C79_renaming : forall r q, renaming r -> keeps_init q -> forall l,
  resolve (map (renamed r q) l) = renamed_result r q (resolve l).
Proof. exact resolve_renamed. Qed.
Print Assumptions C79_renaming.
(** ... and in every state of a resolver. *)
Theorem C79_session : forall r q, renaming r -> keeps_init q -> forall l s,
  resolver_resolve (map (renamed r q) l) (renamed_state r s) =
  match resolver_resolve l s with
  | Done (Ok l', s1) => Done (Ok (map (renamed r q) l'), renamed_state r s1)
  | Done (Err cs, s1) => Done (Err (map (renamed_cause r) cs), renamed_state r s1)
  | Panicked w => Panicked w
  | Diverged => Diverged
  | OutOfFuel => OutOfFuel
  end.
Proof. exact resolver_renamed. Qed.
Print Assumptions C79_session.
Definition swap (x : string) : string := if x =? "a" then "b" else if x =? "b" then "a" else x.
Lemma swap_swap : forall x, swap (swap x) = x.
Proof.
  intros x. unfold swap. destruct (String.eqb_spec x "a") as [->|Na]; [reflexivity|].
  destruct (String.eqb_spec x "b") as [->|Nb]; [reflexivity|].
  destruct (String.eqb_spec x "a"); [contradiction|]. now destruct (String.eqb_spec x "b").
Qed.
Definition collapse (x : string) : string := if x =? "init" then "init" else "k".
Example C79_example : renaming swap /\ keeps_init collapse /\
  map (renamed swap collapse) (tree_of ["fun a(x)"; "  return b.a + x.y"; "print a(b)"]) =
    tree_of ["fun b(x)"; "  return a.k + x.k"; "print b(a)"] /\
  (exists cs, resolve_src ["fun f(a, b)"; "  var b = 1"; "return a"] = Done (Err cs) /\
     map c_token cs = [Some "b"; Some "return"]) /\
  (exists cs, resolve_src ["fun f(b, a)"; "  var a = 1"; "return b"] = Done (Err cs) /\
     map c_token cs = [Some "a"; Some "return"]).
Proof.
  split; [|split; [|split; [|split]]].
  - split; [|repeat split]. intros x y E. apply (f_equal swap) in E. now rewrite !swap_swap in E.
  - intros x. unfold collapse. destruct (String.eqb_spec x "init"); split; auto; intros E; [discriminate E|contradiction].
  - vm_compute. reflexivity.
  - eexists. split; vm_compute; reflexivity.
  - eexists. split; vm_compute; reflexivity.
Qed.
(** Two names may not become one. *)
Theorem C79_any_names_refuted : ~ forall r, r "this" = "this" -> r "super" = "super" -> r "return" = "return" ->
  forall l, resolve (map (renamed r (fun x => x)) l) = renamed_result r (fun x => x) (resolve l).
Proof.
  exact (fun H => ltac:(
    specialize (H (fun x => if x =? "b" then "a" else x) eq_refl eq_refl eq_refl (tree_of ["fun f(a, b)"; "  return a"]));
    vm_compute in H; discriminate H)).
Qed.
Print Assumptions C79_any_names_refuted.

(** ** C80 *)
Theorem C80_any_slots : forall l l' s, map erase l = map erase l' -> resolver_resolve l s = resolver_resolve l' s.
Proof. exact resolver_any_slots. Qed.
Print Assumptions C80_any_slots.
Theorem C80_idempotent : forall l l', resolve l = Done (Ok l') -> resolve l' = Done (Ok l').
Proof. exact resolve_idempotent. Qed.
Print Assumptions C80_idempotent.
Theorem C80_session : forall h s l l' s', history h s ->
  resolver_resolve l s = Done (Ok l', s') -> resolver_resolve l' s = Done (Ok l', s').
Proof. exact (fun h s l l' s' Hh => resolver_idempotent l s l' s' (history_top h s Hh)). Qed.
Print Assumptions C80_session.
Example C80_example :
  match resolve_src ["var z = 0"; "fun f(x)"; "  print z + x"] with
  | Done (Ok l') => l' <> tree_of ["var z = 0"; "fun f(x)"; "  print z + x"] /\ resolve l' = Done (Ok l')
  | _ => False
  end.
Proof. vm_compute. split; [discriminate|reflexivity]. Qed.

(** ** C81 *)
Theorem C81_accepted_again : forall h s l l' s1 s2, history h s ->
  resolver_resolve l s = Done (Ok l', s1) -> only_accepted s1 s2 ->
  Forall size_rule (program_nodes start l) -> (N.of_nat (length (table s2)) <= scope_limit)%N ->
  resolver_resolve l s2 = Done (Ok l', s2).
Proof. exact (fun h s l l' s1 s2 Hh => accepted_again l s l' s1 s2 (history_top h s Hh)). Qed.
Print Assumptions C81_accepted_again.
Definition first_run : list stmt := tree_of ["var a = b"; "fun g()"; "  return a + c"].
Definition second_run : list stmt := tree_of ["var b = 1"; "print g()"].
Definition run (l : list stmt) (s : rstate) : list stmt * rstate :=
  match resolver_resolve l s with Done (Ok l', s') => (l', s') | _ => (nil, s) end.
Example C81_example :
  let (l', s1) := run first_run fresh in let (m, s2) := run second_run s1 in
  resolver_resolve first_run fresh = Done (Ok l', s1) /\ resolver_resolve second_run s1 = Done (Ok m, s2) /\
  only_accepted s1 s2 /\ Forall size_rule (program_nodes start first_run) /\
  s1 <> s2 /\ resolver_resolve first_run s2 = Done (Ok l', s2).
Proof.
  destruct (run first_run fresh) as [l' s1] eqn:E1. destruct (run second_run s1) as [m s2] eqn:E2.
  vm_compute in E1. injection E1 as <- <-. vm_compute in E2. injection E2 as <- <-.
  split; [vm_compute; reflexivity|]. split; [vm_compute; reflexivity|]. split.
  { eapply (one_more _ second_run); [vm_compute; reflexivity|apply nothing_more]. }
  split; [|split; [discriminate|vm_compute; reflexivity]].
  vm_compute. repeat constructor; discriminate.
Qed.
(** A program with errors in between may have spoilt a name. *)
Theorem C81_after_errors_refuted : ~ forall h s l l' s1 m r s2, history h s ->
  resolver_resolve l s = Done (Ok l', s1) -> resolver_resolve m s1 = Done (r, s2) ->
  exists s3, resolver_resolve l s2 = Done (Ok l', s3).
Proof. exact after_errors_refuted. Qed.
Print Assumptions C81_after_errors_refuted.

(** ** C84 *)
Theorem C84_parse : forall r U oc gs gs' es es', renaming_all r -> sane U -> valid_source gs -> valid_source gs' ->
  lexes U gs es -> lexes U gs' es' -> Forall2 (renamed_elem r) es es' ->
  renamed_program r (parse U oc gs) (parse U oc gs').
Proof. exact (fun r U oc gs gs' es es' RA Sn V V' L L' R => parse_renamed r RA U Sn gs gs' es es' V V' L L' R false oc). Qed.
Print Assumptions C84_parse.
Theorem C84_parse_repl_line : forall r U oc gs gs' es es', renaming_all r -> sane U -> valid_source gs -> valid_source gs' ->
  lexes U gs es -> lexes U gs' es' -> Forall2 (renamed_elem r) es es' ->
  renamed_program r (parse_repl_line U oc gs) (parse_repl_line U oc gs').
Proof. exact (fun r U oc gs gs' es es' RA Sn V V' L L' R => parse_renamed r RA U Sn gs gs' es es' V V' L L' R true oc). Qed.
Print Assumptions C84_parse_repl_line.
Theorem C84_parse_expression : forall r U oc gs gs' es es', renaming_all r -> sane U -> valid_source gs -> valid_source gs' ->
  lexes U gs es -> lexes U gs' es' -> Forall2 (renamed_elem r) es es' ->
  renamed_expression r (parse_expression U oc gs) (parse_expression U oc gs').
Proof. exact (fun r U oc gs gs' es es' RA Sn V V' L L' R => parse_expression_renamed r RA U Sn gs gs' es es' V V' L L' R oc). Qed.
Print Assumptions C84_parse_expression.
(** The trees so related resolve alike. *)
Theorem C84_resolve : forall r l l', renaming_all r -> renamed_trees r l l' -> renamed_resolution r (resolve l) (resolve l').
Proof. exact (fun r l l' RA => resolve_new_names r RA l l'). Qed.
Print Assumptions C84_resolve.
(** Writing other names into a text is enough: letters must be able to continue a name. *)
Theorem C84_text : forall r R U oc gs es, renaming_all r -> sane U ->
  (forall c, u_alphabetic U c = true -> u_alphanumeric U c = true) -> valid_source gs -> lexes U gs es ->
  Forall (rewrites U R r) es ->
  renamed_program r (parse U oc gs) (parse U oc (text_of (map (rename_elem R) es))).
Proof. exact (fun r R U oc gs es RA Sn CO V L W => parse_rewritten r RA U CO R gs es Sn V L W false oc). Qed.
Print Assumptions C84_text.
Definition swap_text (t : list string) : list string :=
  match t with ["a"] => ["l"; "o"; "n"; "g"] | ["l"; "o"; "n"; "g"] => ["a"] | t => t end.
Definition swap_long (x : string) : string := if x =? "a" then "long" else if x =? "long" then "a" else x.
Lemma swap_long_all : renaming_all swap_long.
Proof.
  split; [split; [|repeat split]|reflexivity].
  assert (I : forall x, swap_long (swap_long x) = x).
  { intros x. unfold swap_long. destruct (String.eqb_spec x "a") as [->|Na]; [reflexivity|].
    destruct (String.eqb_spec x "long") as [->|Nb]; [reflexivity|].
    destruct (String.eqb_spec x "a"); [contradiction|]. now destruct (String.eqb_spec x "long"). }
  intros x y E. apply (f_equal swap_long) in E. now rewrite !I in E.
Qed.
Definition before : string := lns ["class a"; "  long(a)"; "    return this.a + ""c"" // a"; "print a().long"; "print {a: 1, long: 2}"; ""].
Definition after : string := lns ["class long"; "  a(long)"; "    return this.long + ""c"" // a"; "print long().a"; "print {long: 1, a: 2}"; ""].
Ltac a_name := split; [cbn; intuition discriminate|]; split; [cbn; intuition discriminate|];
  split; [eexists; split; [reflexivity|now left]|];
  split; [repeat (constructor; [eexists; split; [reflexivity|now left]|]); constructor|cbn; intuition discriminate].
Example C84_example :
  (forall c, u_alphabetic sample_unicode c = true -> u_alphanumeric sample_unicode c = true) /\
  Forall (rewrites sample_unicode swap_text swap_long) (elements before) /\
  text_of (map (rename_elem swap_text) (elements before)) = segment after /\
  is_ok (parse sample_unicode true (segment before)) = true.
Proof.
  split; [|split; [|split]].
  - intros c. cbn. intros ->. reflexivity.
  - set (x := elements before). vm_compute in x. subst x.
    repeat (constructor; [first [exact I|reflexivity|split; [a_name|split; [repeat constructor|reflexivity]]]|]). constructor.
  - vm_compute. reflexivity.
  - vm_compute. reflexivity.
Qed.
(** The name [init] has a meaning of its own. *)
Theorem C84_init_refuted : ~ forall r U oc gs gs' es es', renaming r -> sane U -> valid_source gs -> valid_source gs' ->
  lexes U gs es -> lexes U gs' es' -> Forall2 (renamed_elem r) es es' ->
  renamed_program r (parse U oc gs) (parse U oc gs').
Proof. exact init_refuted. Qed.
Print Assumptions C84_init_refuted.
